(** * The checks of the documentation, run on the documentation

    A test of the model, not a proof: the pages, the navigation and the sources of the
    examples as they stand in the repository pass both checks, as they do in its CI. *)
From Verif Require DocText.
From Verif Require Import DocTools.
Local Open Scope string_scope.

(** [read_text().splitlines()]; every file ends with a newline and has no other ends of
    lines. *)
Fixpoint splitlines (s : string) : list string :=
  match s with
  | EmptyString => []
  | String a s' =>
      if Ascii.eqb a "010"%char then "" :: splitlines s'
      else match splitlines s' with
           | l :: ls => String a l :: ls
           | [] => [String a ""]
           end
  end.
Definition find (p : string) : option (list string) :=
  option_map (fun f => splitlines (snd f)) (List.find (fun f => String.eqb (fst f) p) DocText.tree).
Definition with_end (e : string) (p : string) : bool :=
  match before (chars e) (chars p) with Some _ => true | None => false end.
Definition pages : list string := filter (with_end ".md") (map fst DocText.tree).
Definition below_docs : list string :=
  flat_map (fun p => match after (chars "docs/") (chars p) with Some r => [string_of_list_ascii r] | None => [] end) pages.
Definition bound : list block :=
  filter (fun b => match b_bound b with Some _ => true | None => false end)
    (flat_map (fun p => match find p with Some ls => doc_blocks ls | None => [] end) pages).

Example docs_pass : doc_examples find pages = 0 /\ check_nav (find "docs/mkdocs.yml") below_docs = 0 /\
  length pages = 14 /\ length bound = 11.
Proof. vm_compute. auto. Qed.
(** Not idly: with a line changed in a source there is one failure. *)
Definition changed (p : string) : option (list string) :=
  if String.eqb p "test/doc_examples/readme_read_example.cpp"
  then option_map (map (fun l => if String.eqb l "auto main() -> int {" then "int main() {" else l)) (find p)
  else find p.
Example docs_drift : check_pages changed pages =
  [Drifted "README.md" 65 "test/doc_examples/readme_read_example.cpp" (Some 24)].
Proof. vm_compute. reflexivity. Qed.
