(** * scripts/check_doc_examples.py and scripts/check_nav.py

    A file is the list of its lines.  Simplifications: characters are bytes, and [\s],
    [\w] and [isspace] are those of ASCII; paths are strings, and [files] says what is
    found under one (the root is part of it); the texts of the messages are not modelled,
    only which there are. *)
From Coq Require Export String Ascii List Bool Arith.
Export ListNotations.
Open Scope string_scope.

Definition text := list ascii.
Definition chars (s : string) : text := list_ascii_of_string s.

(** [\s] and [str.isspace]. *)
Definition is_space (a : ascii) : bool :=
  let n := nat_of_ascii a in
  (Nat.leb 9 n && Nat.leb n 13) || (Nat.leb 28 n && Nat.leb n 32).

(** [\w]. *)
Definition is_word (a : ascii) : bool :=
  let n := nat_of_ascii a in
  (Nat.leb 48 n && Nat.leb n 57) || (Nat.leb 65 n && Nat.leb n 90) ||
  (Nat.leb 97 n && Nat.leb n 122) || Nat.eqb n 95.

Fixpoint drop_space (l : text) : text :=
  match l with
  | a :: l' => if is_space a then drop_space l' else l
  | [] => []
  end.
(** [str.rstrip], [str.strip]. *)
Definition rstrip (l : text) : text := rev (drop_space (rev l)).
Definition strip (l : text) : text := rstrip (drop_space l).

(** What is left after a prefix. *)
Fixpoint after (p l : text) : option text :=
  match p, l with
  | [], _ => Some l
  | a :: p', b :: l' => if Ascii.eqb a b then after p' l' else None
  | _ :: _, [] => None
  end.
Definition starts (p l : text) : bool := match after p l with Some _ => true | None => false end.
(** What is left before a suffix. *)
Definition before (p l : text) : option text := option_map (@rev ascii) (after (rev p) (rev l)).

(** ** check_doc_examples.py *)

(** 25 [FENCE]. *)
Definition is_fence (s : string) : bool := starts (chars "```") (chars s).

(** 24 [BINDING].  The name has no blank, so it ends where the blanks before the arrow
    begin. *)
Definition binding (s : string) : option string :=
  match after (chars "<!--") (chars s) with
  | Some r =>
      match after (chars "docs:") (drop_space r) with
      | Some r =>
          match before (chars "-->") (rstrip (drop_space r)) with
          | Some r =>
              let name := rstrip r in
              if negb (Nat.eqb (length name) 0) && forallb (fun a => negb (is_space a)) name
              then Some (string_of_list_ascii name) else None
          | None => None
          end
      | None => None
      end
  | None => None
  end.

(** 30 [ENTRY_POINT.search]; [w]: the character before is part of a word. *)
Definition main_here (l : text) : bool :=
  match after (chars "main") l with
  | Some r => starts (chars "(") (drop_space r)
  | None => false
  end.
Fixpoint search_main (w : bool) (l : text) : bool :=
  match l with
  | [] => false
  | a :: l' => (negb w && main_here l) || search_main (is_word a) l'
  end.
Definition entry_point (s : string) : bool := search_main false (chars s).

Record block := mkBlock { b_line : nat; b_bound : option string; b_body : list string }.

(** 33-53 [doc_blocks]: [out] is the outer loop, [inn] the inner one; [n] is [i],
    [prev] is [lines[i - 1]]. *)
Fixpoint out (n : nat) (prev : option string) (ls : list string) : list block :=
  match ls with
  | [] => []
  | l :: ls' =>
      if is_fence l
      then inn (S n) (S n) (match prev with Some p => binding p | None => None end) [] ls'
      else out (S n) (Some l) ls'
  end
with inn (n start : nat) (bd : option string) (body : list string) (ls : list string) : list block :=
  match ls with
  | [] => [mkBlock start bd body]
  | l :: ls' =>
      if is_fence l then mkBlock start bd body :: out (S n) (Some l) ls'
      else inn (S n) start bd (body ++ [l]) ls'
  end.
Definition doc_blocks (ls : list string) : list block := out 0 None ls.

Fixpoint first_index {A} (p : A -> bool) (l : list A) : option nat :=
  match l with
  | [] => None
  | a :: l' => if p a then Some O else option_map S (first_index p l')
  end.
Definition is_begin (s : string) : bool :=
  String.eqb (string_of_list_ascii (strip (chars s))) "// docs-begin".
Definition is_end (s : string) : bool :=
  String.eqb (string_of_list_ascii (strip (chars s))) "// docs-end".

(** A Python slice [l[a:b]]. *)
Definition slice {A} (a b : nat) (l : list A) : list A := firstn (b - a) (skipn a l).

(** 56-63 [source_region]. *)
Definition source_region (ls : list string) : option (list string) :=
  match first_index is_begin ls, first_index is_end ls with
  | Some b, Some e => Some (slice (b + 1) e ls)
  | _, _ => None
  end.

(** 121-131 [_first_difference]: the line reported; [None] is the last message. *)
Fixpoint first_difference (doc src : list string) (n i : nat) : option nat :=
  match n with
  | O => None
  | S n' =>
      let d := nth i doc "<end of block>" in
      let s := nth i src "<end of region>" in
      if String.eqb d s then first_difference doc src n' (S i) else Some (S i)
  end.
Definition reported (doc src : list string) : option nat :=
  first_difference doc src (Nat.max (length doc) (length src)) 0.

Inductive failure :=
| NoBinding (page : string) (line : nat)
| NoFile (page : string) (line : nat) (src : string)
| NoMarkers (page : string) (line : nat) (src : string)
| Drifted (page : string) (line : nat) (src : string) (at_line : option nat).

Fixpoint same_lines (a b : list string) : bool :=
  match a, b with
  | [], [] => true
  | x :: a', y :: b' => String.eqb x y && same_lines a' b'
  | _, _ => false
  end.

Definition filesystem := string -> option (list string).

(** 75-105. *)
Definition check_block (files : filesystem) (page : string) (b : block) : list failure :=
  match b_bound b with
  | None => if existsb entry_point (b_body b) then [NoBinding page (b_line b)] else []
  | Some src =>
      match files src with
      | None => [NoFile page (b_line b) src]
      | Some ls =>
          match source_region ls with
          | None => [NoMarkers page (b_line b) src]
          | Some r => if same_lines r (b_body b) then []
                      else [Drifted page (b_line b) src (reported (b_body b) r)]
          end
      end
  end.

(** 66-118 [main]: the failures and the exit code. *)
Definition check_pages (files : filesystem) (pages : list string) : list failure :=
  flat_map (fun p => match files p with
                     | Some ls => flat_map (check_block files p) (doc_blocks ls)
                     | None => []
                     end) pages.
Definition doc_examples (files : filesystem) (pages : list string) : nat :=
  match check_pages files pages with [] => 0 | _ :: _ => 1 end.

(** ** check_nav.py *)

(** The class [[\w./-]]. *)
Definition is_path (a : ascii) : bool :=
  is_word a || Ascii.eqb a "." || Ascii.eqb a "/" || Ascii.eqb a "-".

Fixpoint span (p : ascii -> bool) (l : text) : text * text :=
  match l with
  | a :: l' => if p a then let '(x, y) := span p l' in (a :: x, y) else ([], l)
  | [] => ([], [])
  end.

(** 20 [NAV_ENTRY.search], from the end of the line: no character of the class is a
    blank or a colon, so the name is the longest run of them. *)
Definition nav_entry (s : string) : option string :=
  let '(name, rest) := span is_path (drop_space (rev (chars s))) in
  match after (rev (chars ".md")) name, drop_space rest with
  | Some (_ :: _), ":"%char :: _ => Some (string_of_list_ascii (rev name))
  | _, _ => None
  end.

Definition is_nav (s : string) : bool :=
  String.eqb (string_of_list_ascii (rstrip (chars s))) "nav:".

(** 33 the end of nav. *)
Definition next_key (s : string) : bool :=
  match chars s with
  | [] => false
  | a :: _ => negb (is_space a) && negb (starts (chars "#") (drop_space (chars s)))
  end.

(** 31-37 the loop. *)
Fixpoint entries (ls : list string) : list string :=
  match ls with
  | [] => []
  | l :: ls' =>
      if next_key l then []
      else match nav_entry l with Some p => p :: entries ls' | None => entries ls' end
  end.

(** 23-38 [nav_pages]. *)
Definition nav_pages (ls : list string) : list string :=
  match first_index is_nav ls with Some i => entries (skipn (i + 1) ls) | None => [] end.

Inductive problem := Unlisted (p : string) | Nowhere (p : string) | Twice (p : string).

Definition member (p : string) (l : list string) : bool := existsb (String.eqb p) l.
Definition count (p : string) (l : list string) : nat := length (filter (String.eqb p) l).

(** 41-75 [main].  The set of duplicates is the list of them; [sorted] changes the order
    only.  [yml]: docs/mkdocs.yml. *)
Definition nav_problems (ls on_disk : list string) : list problem :=
  let listed := nav_pages ls in
  map Unlisted (filter (fun p => negb (member p listed)) on_disk) ++
  map Nowhere (filter (fun p => negb (member p on_disk)) listed) ++
  map Twice (nodup string_dec (filter (fun p => Nat.ltb 1 (count p listed)) listed)).
Definition check_nav (yml : option (list string)) (on_disk : list string) : nat :=
  match yml with
  | None => 1
  | Some ls => match nav_problems ls on_disk with [] => 0 | _ :: _ => 1 end
  end.
