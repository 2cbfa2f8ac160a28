(** * scripts/amalgam.py: the single header

    A source is the files below the directory with their lines.  Names of files are
    resolved paths; a file exists if it is one of the source's.  Simplifications: a line
    is an include of a file, an include of a standard header, or code (the regular
    expressions of lines 7-10 are in AmalgamText.v); Python's limit on the depth of
    recursion is not modelled: [None] means "did not terminate", which C94 excludes. *)
From Coq Require Export String List Bool.
Export ListNotations.
From Verif Require Export Spec.

Inductive line := LInc (f : ident) | LStd (h : ident) | LCode (t : ident).
Definition source := list (ident * list line).
Definition graph := list (ident * list ident).

(** 12-28 [process_file]. *)
Definition file_includes (ls : list line) : list ident :=
  flat_map (fun l => match l with LInc f => [f] | _ => [] end) ls.
Definition std_includes (ls : list line) : list ident :=
  flat_map (fun l => match l with LStd h => [h] | _ => [] end) ls.

(** 30-53 [process_directory]: an include of a file that does not exist is dropped. *)
Definition isfile (src : source) (f : ident) : bool := memb f (map fst src).
Definition graph_of (src : source) : graph :=
  map (fun x => (fst x, filter (isfile src) (file_includes (snd x)))) src.
Definition all_std (src : source) : list ident := flat_map (fun x => std_includes (snd x)) src.

(** [graph.get(file, [])]. *)
Fixpoint includes (g : graph) (f : ident) : list ident :=
  match g with
  | [] => []
  | (x, l) :: g' => if String.eqb x f then l else includes g' f
  end.

Fixpoint each {S} (step : ident -> S -> option S) (l : list ident) (s : S) : option S :=
  match l with
  | [] => Some s
  | x :: l' => match step x s with Some s' => each step l' s' | None => None end
  end.

(** 55-67 [get_all_transitive_dependencies]: the dependencies and the visited files.  Sets
    are lists. *)
Fixpoint transitive (n : nat) (g : graph) (f : ident) (vis : list ident)
  : option (list ident * list ident) :=
  match n with
  | O => None
  | S n' =>
      if memb f vis then Some ([], vis)
      else each (fun d s => match transitive n' g d (snd s) with
                            | Some (ds, vis') => Some (fst s ++ ds, vis')
                            | None => None
                            end) (includes g f) (includes g f, f :: vis)
  end.

Definition depth (g : graph) : nat := S (length g).

(** 69-82 [remove_redundant_includes]. *)
Definition covered (g : graph) (incs : list ident) : option (list ident) :=
  each (fun i s => match transitive (depth g) g i [] with
                   | Some (ds, _) => Some (s ++ ds)
                   | None => None
                   end) incs [].

Fixpoint reduce (g : graph) (h : graph) : option graph :=
  match h with
  | [] => Some []
  | (f, incs) :: h' =>
      match covered g incs, reduce g h' with
      | Some t, Some r => Some ((f, filter (fun i => negb (memb i t)) incs) :: r)
      | _, _ => None
      end
  end.

(** 84-99 [topological_sort]: visited files and the stack, last pushed last. *)
Fixpoint visit (n : nat) (g : graph) (f : ident) (s : list ident * list ident)
  : option (list ident * list ident) :=
  match n with
  | O => None
  | S n' =>
      if memb f (fst s) then Some s
      else match each (visit n' g) (includes g f) (f :: fst s, snd s) with
           | Some (vis, out) => Some (vis, out ++ [f])
           | None => None
           end
  end.

Definition topological_sort (g : graph) (start : ident) : option (list ident) :=
  match visit (depth g) g start ([], []) with Some (_, out) => Some out | None => None end.

(** 101-132 [concatenate_files]: the standard headers sorted, each once; then the files in
    order, each once, without the lines that include something. *)
Fixpoint insert (x : ident) (l : list ident) : list ident :=
  match l with
  | [] => [x]
  | y :: l' =>
      match String.compare x y with
      | Lt => x :: l
      | Eq => l
      | Gt => y :: insert x l'
      end
  end.
Definition sorted_set (l : list ident) : list ident := fold_right insert [] l.

Fixpoint once (seen l : list ident) : list ident :=
  match l with
  | [] => []
  | x :: l' => if memb x seen then once seen l' else x :: once (x :: seen) l'
  end.

Fixpoint text (src : source) (f : ident) : list line :=
  match src with
  | [] => []
  | (x, ls) :: src' => if String.eqb x f then ls else text src' f
  end.

Definition code_of (ls : list line) : list ident :=
  flat_map (fun l => match l with LCode t => [t] | _ => [] end) ls.

Definition block (src : source) (f : ident) : ident * list ident := (f, code_of (text src f)).

Inductive amalgamated :=
| Bad                                              (* entry file not found, 150-152 *)
| Single (std : list ident) (blocks : list (ident * list ident)).

(** 134-175 [main]. *)
Definition amalgam (src : source) (entry : ident) : option amalgamated :=
  let g := graph_of src in
  if negb (isfile src entry) then Some Bad
  else match reduce g g with
       | Some r =>
           match topological_sort r entry with
           | Some order => Some (Single (sorted_set (all_std src)) (map (block src) (once [] order)))
           | None => None
           end
       | None => None
       end.
