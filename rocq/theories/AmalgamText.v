(** * scripts/amalgam.py: the texts of the files and their paths

    Amalgam.v is about files whose lines have been told apart; here are the regular
    expressions, the paths and the text that is written.  Simplifications: characters are
    bytes, and [\s] and [\w] are those of ASCII; a path is the list of its components from
    the root, and the directory given is one; there are no links, and the directories are
    those with files below them; names that begin with two slashes, which [normpath] treats
    apart, files that cannot be read (lines 25-26, 131-132) and what is printed are not
    modelled. *)
From Coq Require Export String Ascii List Bool Arith.
From Verif Require DocTools.
From Verif Require Export Amalgam.
Import DocTools(chars, is_space, is_word, drop_space, after, span).
Local Open Scope list_scope.

Definition nl : ascii := "010"%char.
Definition quote : ascii := "034"%char.
Definition is_nl (a : ascii) : bool := Ascii.eqb a nl.

(** 18 the lines of a file, without their ends.  Where Python has no line after the last
    newline there is an empty one here, which matches neither expression. *)
Fixpoint lines (t : list ascii) : list (list ascii) :=
  match t with
  | [] => [[]]
  | a :: t' =>
      if is_nl a then [] :: lines t'
      else match lines t' with l :: ls => (a :: l) :: ls | [] => [[a]] end
  end.

(** 7 [include_pattern] up to the second quote: the name and what follows.  Neither the
    number sign nor the quote is a blank, so the expression matches in one way only. *)
Definition inc_head (l : list ascii) : option (list ascii * list ascii) :=
  match after (chars "#include") (drop_space l) with
  | Some r =>
      match drop_space r with
      | q :: r' =>
          if Ascii.eqb q quote
          then match span (fun a => negb (Ascii.eqb a quote)) r' with
               | ((_ :: _) as name, _ :: rest) => Some (name, rest)
               | _ => None
               end
          else None
      | [] => None
      end
  | None => None
  end.

(** 8 [std_include_pattern] up to the bracket. *)
Definition std_head (l : list ascii) : option (list ascii * list ascii) :=
  match after (chars "#include") (drop_space l) with
  | Some r =>
      match drop_space r with
      | q :: r' =>
          if Ascii.eqb q "<"%char
          then match span is_word r' with
               | ((_ :: _) as name, c :: rest) => if Ascii.eqb c ">"%char then Some (name, rest) else None
               | _ => None
               end
          else None
      | [] => None
      end
  | None => None
  end.

(** 19-24 the expressions on a line: [\s*$]. *)
Definition on_line (head : list ascii -> option (list ascii * list ascii)) (l : list ascii)
  : option (list ascii) :=
  match head l with
  | Some (name, rest) => if forallb is_space rest then Some name else None
  | None => None
  end.
Definition inc_line := on_line inc_head.
Definition std_line := on_line std_head.

(** [\s*$] with [re.MULTILINE], as many blanks as possible: what is left. *)
Fixpoint to_end (r : list ascii) : option (list ascii) :=
  match r with
  | [] => Some []
  | a :: r' =>
      if is_space a
      then match to_end r' with
           | Some x => Some x
           | None => if is_nl a then Some r else None
           end
      else None
  end.

(** The expressions in a text, at the start of a line: how much they match. *)
Definition here (head : list ascii -> option (list ascii * list ascii)) (l : list ascii) : nat :=
  match head l with
  | Some (_, rest) => match to_end rest with Some x => length l - length x | None => 0 end
  | None => 0
  end.

(** [re.sub(pattern, ' ', text, flags=re.MULTILINE)].  [skip]: so many characters belong
    to a match; [bol]: the next one starts a line. *)
Fixpoint sub (head : list ascii -> option (list ascii * list ascii)) (skip : nat) (bol : bool)
  (l : list ascii) : list ascii :=
  match l with
  | [] => []
  | a :: l' =>
      match skip with
      | S k => sub head k (is_nl a) l'
      | O => match (if bol then here head l else O) with
             | S k => " "%char :: sub head k (is_nl a) l'
             | O => a :: sub head 0 (is_nl a) l'
             end
      end
  end.

(** 119-120. *)
Definition without_includes (t : list ascii) : list ascii :=
  sub std_head 0 true (sub inc_head 0 true t).

(** ** Paths *)

Notation path := (list string).
Notation disk := (list (path * list ascii)).

(** An absolute path as Python has it. *)
Fixpoint render (p : path) : string :=
  match p with [] => "" | c :: p' => String "/" (c ++ render p') end.

Fixpoint parts (s : string) : list string :=
  match s with
  | EmptyString => [""%string]
  | String a s' =>
      if Ascii.eqb a "/"%char then ""%string :: parts s'
      else match parts s' with c :: cs => String a c :: cs | [] => [String a ""] end
  end.

Definition go (cur : path) (c : string) : path :=
  if String.eqb c "" || String.eqb c "." then cur
  else if String.eqb c ".." then removelast cur
  else cur ++ [c].

(** 45 [os.path.join]: a name that begins with a slash stands for itself. *)
Definition start (dir : path) (name : string) : path :=
  match parts name with ""%string :: _ => [] | _ => dir end.

(** 47 [os.path.abspath] of it, which looks at the name only. *)
Definition abspath (dir : path) (name : string) : path :=
  fold_left go (parts name) (start dir name).

Fixpoint same (p q : path) : bool :=
  match p, q with
  | [], [] => true
  | a :: p', b :: q' => String.eqb a b && same p' q'
  | _, _ => false
  end.
Fixpoint above (p q : path) : bool :=
  match p, q with
  | [], _ :: _ => true
  | a :: p', b :: q' => String.eqb a b && above p' q'
  | _, _ => false
  end.
Definition is_file (d : disk) (p : path) : bool := existsb (fun f => same p (fst f)) d.
Definition is_dir (d : disk) (p : path) : bool := existsb (fun f => above p (fst f)) d.

(** 46 [os.path.isfile] of it: the system walks from directory to directory. *)
Fixpoint walk (d : disk) (cur : path) (cs : list string) : option path :=
  match cs with
  | [] => Some cur
  | c :: cs' => if is_dir d cur then walk d (go cur c) cs' else None
  end.
Definition finds (d : disk) (dir : path) (name : string) : bool :=
  match walk d (start dir name) (parts name) with Some p => is_file d p | None => false end.

(** 37 [filename.endswith]. *)
Definition ends (suffix name : string) : bool :=
  match DocTools.before (chars suffix) (chars name) with Some _ => true | None => false end.
(** 35-37 the files that are read. *)
Definition scanned (base p : path) : bool :=
  above base p &&
  existsb (fun s => ends s (last p ""%string)) [".h"; ".hpp"; ".c"; ".cpp"]%string.

(** 12-53: what a line of a file in [dir] is.  An include of nothing is dropped with a
    warning; its line goes nonetheless. *)
Definition kind (d : disk) (dir : path) (l : list ascii) : list line :=
  match inc_line l, std_line l with
  | Some n, _ =>
      let name := string_of_list_ascii n in
      if finds d dir name then [LInc (render (abspath dir name))] else []
  | None, Some h => [LStd (string_of_list_ascii h)]
  | None, None => [LCode (string_of_list_ascii l)]
  end.
(** A file that is not read has no entry in the graph, and [graph.get(file, [])] is empty;
    its lines with includes go nonetheless. *)
Definition only_code (l : list ascii) : list line :=
  match inc_line l, std_line l with
  | None, None => [LCode (string_of_list_ascii l)]
  | _, _ => []
  end.
Definition lines_of (base : path) (d : disk) (f : path * list ascii) : list line :=
  flat_map (if scanned base (fst f) then kind d (removelast (fst f)) else only_code) (lines (snd f)).
Definition source_of (base : path) (d : disk) : source :=
  map (fun f => (render (fst f), lines_of base d f)) d.

(** 121 [os.path.relpath]. *)
Fixpoint relpath (base p : path) : path :=
  match base, p with
  | b :: base', c :: p' =>
      if String.eqb b c then relpath base' p' else map (fun _ => ".."%string) base ++ p
  | _, _ => map (fun _ => ".."%string) base ++ p
  end.
Definition shown (base p : path) : list ascii := chars (String.concat "/" (relpath base p)).

(** 117-124 one file, 113-124 all of them; 110-111 the standard headers. *)
Definition file_text (base : path) (f : path * list ascii) : list ascii :=
  nl :: chars "// Begin " ++ shown base (fst f) ++ nl ::
  without_includes (snd f) ++
  nl :: chars "// End " ++ shown base (fst f) ++ [nl].
Definition named (d : disk) (f : ident) : disk :=
  filter (fun x => String.eqb (render (fst x)) f) d.
Definition std_text (h : ident) : list ascii := chars "#include <" ++ chars h ++ chars ">" ++ [nl].

Inductive ran := Exit1 | Wrote (t : list ascii).

(** 134-175 [main]. *)
Definition amalgamate (base : path) (d : disk) (entry : string) : option ran :=
  if negb (existsb (fun f => scanned base (fst f) && String.eqb (render (fst f)) entry) d)
  then Some Exit1
  else match amalgam (source_of base d) entry with
       | Some (Single std bs) =>
           Some (Wrote (flat_map std_text std ++
                        flat_map (fun f => flat_map (file_text base) (named d f)) (map fst bs)))
       | Some Bad => Some Exit1
       | None => None
       end.
