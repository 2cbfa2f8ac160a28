(** * The texts and paths of the single header: what the statements say

    Independent of the script: lines and texts, which lines include something, where an
    include leads, which files are needed. *)
From Coq Require Export String Ascii List Bool Arith Relations Sorting.Sorted Sorting.Permutation.
From Verif Require DocSpec.
Import DocSpec(blank_char, word_char).
Export ListNotations.
Local Open Scope list_scope.

Notation str := (list ascii).
Definition s (x : string) : str := list_ascii_of_string x.
Definition newline : ascii := "010"%char.
Definition dquote : ascii := "034"%char.

Definition one_line (l : str) : Prop := ~ In newline l.
Fixpoint join (ls : list str) : str :=
  match ls with
  | [] => []
  | [l] => l
  | l :: ls' => l ++ newline :: join ls'
  end.
Definition text_lines (t : str) (ls : list str) : Prop :=
  ls <> [] /\ Forall one_line ls /\ t = join ls.

Definition blank (l : str) : Prop := Forall blank_char l.

(** Lines the script knows: nothing but the include. *)
Definition quoted (l name : str) : Prop :=
  exists w1 w2 w3, blank w1 /\ blank w2 /\ blank w3 /\ name <> [] /\ ~ In dquote name /\
    l = w1 ++ s "#include" ++ w2 ++ [dquote] ++ name ++ [dquote] ++ w3.
Definition angled (l name : str) : Prop :=
  exists w1 w2 w3, blank w1 /\ blank w2 /\ blank w3 /\ name <> [] /\ Forall word_char name /\
    l = w1 ++ s "#include" ++ w2 ++ s "<" ++ name ++ s ">" ++ w3.
Definition says (l : str) : Prop :=
  ~ blank l /\ (forall n, ~ quoted l n) /\ (forall n, ~ angled l n).

(** An include whose name does not end on its line. *)
Definition runs_on (l : str) : Prop :=
  exists w1 w2 r, blank w1 /\ blank w2 /\ l = w1 ++ s "#include" ++ w2 ++ r /\
    (r = [] \/ exists u, r = dquote :: u /\ ~ In dquote u).

(** [r] is [l] without the elements that are not [P]. *)
Inductive keeps {A} (P : A -> Prop) : list A -> list A -> Prop :=
| keeps_nil : keeps P [] []
| keeps_in x l r : P x -> keeps P l r -> keeps P (x :: l) (x :: r)
| keeps_out x l r : ~ P x -> keeps P l r -> keeps P (x :: l) r.

(** ** Paths *)

Notation place := (list string).
Notation files := (list (place * str)).

Definition component (c : string) : Prop :=
  c <> ""%string /\ c <> "."%string /\ c <> ".."%string /\
  ~ In "/"%char (s c) /\ ~ In newline (s c).
Definition sound (d : files) : Prop :=
  NoDup (map fst d) /\ forall p, In p (map fst d) -> p <> [] /\ Forall component p.

Definition directory (d : files) (p : place) : Prop :=
  exists q r, q <> [] /\ r = p ++ q /\ In r (map fst d).

(** Following the components of a name, from directory to directory. *)
Inductive leads (d : files) : place -> list string -> place -> Prop :=
| leads_here p : leads d p [] p
| leads_stay p c cs q : directory d p -> c = ""%string \/ c = "."%string ->
    leads d p cs q -> leads d p (c :: cs) q
| leads_up p c cs q : directory d (p ++ [c]) -> leads d p cs q -> leads d (p ++ [c]) (".."%string :: cs) q
| leads_top cs q : directory d [] -> leads d [] cs q -> leads d [] (".."%string :: cs) q
| leads_down p c cs q : directory d p -> c <> ""%string -> c <> "."%string -> c <> ".."%string ->
    leads d (p ++ [c]) cs q -> leads d p (c :: cs) q.

Fixpoint slashed (cs : list string) : str :=
  match cs with
  | [] => []
  | [c] => s c
  | c :: cs' => s c ++ "/"%char :: slashed cs'
  end.

(** The file that a file in directory [dir] gets by the name [n]. *)
Definition names (d : files) (dir : place) (n : str) (q : place) : Prop :=
  exists cs, cs <> [] /\ Forall (fun c => ~ In "/"%char (s c)) cs /\ n = slashed cs /\
    In q (map fst d) /\
    (((exists cs', cs = ""%string :: cs') /\ leads d [] cs q) \/
     ((forall cs', cs <> ""%string :: cs') /\ leads d dir cs q)).

(** File [a] includes file [b]. *)
Definition direct (d : files) (a b : place) : Prop :=
  exists dir f t ls l n, a = dir ++ [f] /\ In (a, t) d /\ text_lines t ls /\ In l ls /\
    quoted l n /\ names d dir n b.
Definition needs (d : files) : place -> place -> Prop := clos_refl_trans _ (direct d).
Definition acyclic (d : files) : Prop := forall a, ~ clos_trans _ (direct d) a a.

(** The files that are looked at: by name, below a directory. *)
Definition looked_at (base p : place) : Prop :=
  exists q f e, p = base ++ q ++ [(f ++ e)%string] /\ In e [".h"; ".hpp"; ".c"; ".cpp"]%string.

Fixpoint absolute (p : place) : string :=
  match p with [] => "" | c :: p' => "/" ++ c ++ absolute p' end.

(** The lines of the single header that are not blank: a file's. *)
Definition block_of (d : files) (base p : place) (b : list str) : Prop :=
  exists t ls c rel, In (p, t) d /\ text_lines t ls /\ keeps says ls c /\
    (forall q, p = base ++ q -> rel = slashed q) /\
    b = (s "// Begin " ++ rel) :: c ++ [s "// End " ++ rel].

(** ** A directory in another place *)

Definition below (base : place) (d : files) : files := map (fun f => (base ++ fst f, snd f)) d.

(** The components lead nowhere above, [k] directories below it. *)
Inductive stays : nat -> list string -> Prop :=
| stays_end k : stays k []
| stays_here k c cs : c = ""%string \/ c = "."%string -> stays k cs -> stays k (c :: cs)
| stays_up k cs : stays k cs -> stays (S k) (".."%string :: cs)
| stays_down k c cs : c <> ""%string -> c <> "."%string -> c <> ".."%string ->
    stays (S k) cs -> stays k (c :: cs).

(** No file includes anything by a name that leads out of the directory. *)
Definition closed (d : files) : Prop :=
  forall dir f t ls l cs, In (dir ++ [f], t) d -> text_lines t ls -> In l ls ->
    cs <> [] -> Forall (fun c => ~ In "/"%char (s c)) cs -> quoted l (slashed cs) ->
    (forall cs', cs <> ""%string :: cs') /\ stays (length dir) cs.

(** The way from a directory to a file: up as far as necessary, then down. *)
Definition way (base p w : place) : Prop :=
  exists c up down, base = c ++ up /\ p = c ++ down /\ w = repeat ".."%string (length up) ++ down /\
    forall x u v, up = x :: u -> down <> x :: v.
