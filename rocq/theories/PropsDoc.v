(** * C99: the checks of the documentation *)
From Verif Require Import DocTools DocSpec DocFacts.
Open Scope list_scope.

(** The regular expressions match what the comments of the script say. *)
Theorem C99_expressions : forall s p,
  (is_fence s = true <-> fence s) /\ (binding s = Some p <-> bound_to s p) /\
  (entry_point s = true <-> has_main s) /\ (nav_entry s = Some p <-> nav_line s p).
Proof. exact (fun s p => conj (fence_iff s) (conj (binding_iff s p) (conj (entry_iff s) (nav_entry_iff s p)))). Qed.
Print Assumptions C99_expressions.

(** The blocks found are those that begin at every other fence. *)
Theorem C99_blocks : forall ls b, In b (doc_blocks ls) <-> shows ls (b_line b) (b_bound b) (b_body b).
Proof. exact blocks_iff. Qed.
Print Assumptions C99_blocks.

(** The check passes exactly if every block that is bound repeats the region of a source
    that exists, and every other block has no program in it.  A source whose marks are in
    the wrong order counts as having an empty region. *)
Theorem C99_examples : forall files pages, doc_examples files pages = 0 <->
  forall p ls line src body, In p pages -> files p = Some ls -> shows ls line src body ->
  match src with
  | None => forall l, In l body -> ~ has_main l
  | Some f => exists fl, files f = Some fl /\ (region fl body \/ (crossed fl /\ body = []))
  end.
Proof. exact examples_ok. Qed.
Print Assumptions C99_examples.

(** The difference that is reported is the first. *)
Theorem C99_reported : forall doc src,
  ~ In "<end of region>" doc -> ~ In "<end of block>" src -> doc <> src ->
  exists j, reported doc src = Some (S j) /\
    firstn j doc = firstn j src /\ nth_error doc j <> nth_error src j.
Proof. exact reported_first. Qed.
Print Assumptions C99_reported.

(** The other check passes exactly if the navigation lists every page once and no other. *)
Theorem C99_navigation : forall yml disk, NoDup disk ->
  (check_nav yml disk = 0 <-> exists ls ps, yml = Some ls /\ lists ls ps /\ Permutation ps disk).
Proof. exact nav_ok. Qed.
Print Assumptions C99_navigation.

(** What is said of a block that fails, and of a page. *)
Theorem C99_failures : forall files pages p n f k,
  let shown src body := In p pages /\ exists ls, files p = Some ls /\ shows ls n src body in
  let fails := check_pages files pages in
  (In (NoBinding p n) fails <-> exists body l, shown None body /\ In l body /\ has_main l) /\
  (In (NoFile p n f) fails <-> exists body, shown (Some f) body /\ files f = None) /\
  (In (NoMarkers p n f) fails <-> exists body fl, shown (Some f) body /\ files f = Some fl /\
    ((forall l, In l fl -> ~ opens l) \/ (forall l, In l fl -> ~ closes l))) /\
  (In (Drifted p n f k) fails <-> exists body fl r, shown (Some f) body /\ files f = Some fl /\
    (region fl r \/ (crossed fl /\ r = [])) /\ r <> body /\ reported body r = k).
Proof. exact failures. Qed.
Print Assumptions C99_failures.

Theorem C99_problems : forall ls ps disk q, lists ls ps ->
  (In (Unlisted q) (nav_problems ls disk) <-> In q disk /\ ~ In q ps) /\
  (In (Nowhere q) (nav_problems ls disk) <-> In q ps /\ ~ In q disk) /\
  (In (Twice q) (nav_problems ls disk) <-> exists a b c, ps = a ++ q :: b ++ q :: c).
Proof. exact problems. Qed.
Print Assumptions C99_problems.

(** A check that does not pass exits with one. *)
Theorem C99_exit : forall files pages yml disk,
  (doc_examples files pages = 0 \/ doc_examples files pages = 1) /\ (check_nav yml disk = 0 \/ check_nav yml disk = 1).
Proof. exact exits. Qed.
Print Assumptions C99_exit.

(** ** What passes all the same. *)

(** A program in a fence that is indented. *)
Theorem C99_indented_refuted : exists files pages p ls,
  In p pages /\ files p = Some ls /\ doc_examples files pages = 0 /\
  In "  ```cpp" ls /\ exists l, In l ls /\ has_main l.
Proof.
  exists (fun p => if String.eqb p "README.md" then Some ["- see:"; "  ```cpp"; "  int main() {}"; "  ```"] else None),
    ["README.md"], "README.md", ["- see:"; "  ```cpp"; "  int main() {}"; "  ```"].
  split; [simpl; auto|]. split; [reflexivity|]. split; [vm_compute; reflexivity|]. split; [simpl; auto|].
  exists "  int main() {}". split; [simpl; auto|]. apply entry_iff. vm_compute. reflexivity.
Qed.
Print Assumptions C99_indented_refuted.

(** An empty block bound to a source whose marks are in the wrong order. *)
Theorem C99_crossed_refuted : exists files pages p ls f fl,
  In p pages /\ files p = Some ls /\ shows ls 2 (Some f) [] /\ files f = Some fl /\
  In "// docs-begin" fl /\ In "int main() {}" fl /\ In "// docs-end" fl /\
  doc_examples files pages = 0.
Proof.
  set (ls := ["<!-- docs: a.cpp -->"; "```cpp"; "```"]).
  set (fl := ["// docs-end"; "int main() {}"; "// docs-begin"]).
  exists (fun p => if String.eqb p "README.md" then Some ls else if String.eqb p "a.cpp" then Some fl else None),
    ["README.md"], "README.md", ls, "a.cpp", fl.
  split; [simpl; auto|]. split; [reflexivity|].
  split. { apply (blocks_iff ls (mkBlock 2 (Some "a.cpp") [])). vm_compute. auto. }
  split; [reflexivity|]. split; [simpl; auto|]. split; [simpl; auto|]. split; [simpl; auto|].
  vm_compute. reflexivity.
Qed.
Print Assumptions C99_crossed_refuted.

(** A line that happens to be the text for the end of the block. *)
Theorem C99_reported_refuted : exists doc src, doc <> src /\ reported doc src = None.
Proof. exists [], ["<end of block>"]. split; [discriminate|reflexivity]. Qed.
Print Assumptions C99_reported_refuted.

(** A page whose entry is commented out. *)
Theorem C99_commented_refuted : exists ls disk, NoDup disk /\ check_nav (Some ls) disk = 0 /\
  In "errors.md" disk /\
  forall l, In l ls -> nav_line l "errors.md" -> exists r, l = ("  # " ++ r)%string.
Proof.
  exists ["nav:"; "  - Overview: index.md"; "  # - Errors: errors.md"; "strict: true"], ["errors.md"; "index.md"].
  split; [repeat constructor; simpl; intuition discriminate|]. split; [vm_compute; reflexivity|].
  split; [simpl; auto|]. intros l H N. apply nav_entry_iff in N.
  destruct H as [<-|[<-|[<-|[<-|[]]]]]; vm_compute in N; try discriminate.
  exists "- Errors: errors.md". reflexivity.
Qed.
Print Assumptions C99_commented_refuted.

(** ** Cases. *)

Definition doc_page : list string :=
  ["# s2s"; "<!-- docs: test/a.cpp -->"; "```cpp"; "auto main() -> int {"; "}"; "```"; "";
   "```cpp"; "auto domain(int) -> int;"; "```"].
Definition doc_source : list string :=
  ["// about"; "  // docs-begin"; "auto main() -> int {"; "}"; "// docs-end "].
Definition doc_files (page : list string) : filesystem :=
  fun p => if String.eqb p "README.md" then Some page
           else if String.eqb p "test/a.cpp" then Some doc_source else None.

Example C99_examples_case :
  doc_blocks doc_page = [mkBlock 3 (Some "test/a.cpp") ["auto main() -> int {"; "}"];
                         mkBlock 8 None ["auto domain(int) -> int;"]] /\
  doc_examples (doc_files doc_page) ["README.md"; "docs/index.md"] = 0 /\
  check_pages (doc_files ["```"; "int main () {"; "```"]) ["README.md"] = [NoBinding "README.md" 1] /\
  check_pages (doc_files ["<!--docs:b.cpp-->"; "```"; "```"]) ["README.md"] = [NoFile "README.md" 2 "b.cpp"] /\
  check_pages (doc_files ["<!-- docs: test/a.cpp -->"; "```"; "auto main() -> int {"; "  }"; "```"]) ["README.md"]
    = [Drifted "README.md" 2 "test/a.cpp" (Some 2)] /\
  check_pages (doc_files ["<!-- docs: README.md -->"; "```"; "}"]) ["README.md"]
    = [NoMarkers "README.md" 2 "README.md"].
Proof. vm_compute. auto 10. Qed.

(** docs/mkdocs.yml:44-60. *)
Example C99_navigation_case :
  let pages := ["index.md"; "struct.md"; "schema/index.md"; "schema/size-axis.md";
                "schema/computed-values.md"; "schema/optional-and-variant.md"; "constraints.md";
                "reading.md"; "writing.md"; "streams.md"; "compile-time.md"; "errors.md"; "reference.md"] in
  let yml := ["site_name: s2s"; "nav:"; "  - Overview: index.md"; "  - The meta-struct: struct.md";
    "  - Schema:"; "      - Fields and axes: schema/index.md"; "      - The size axis: schema/size-axis.md";
    "      - Computed values: schema/computed-values.md";
    "      - Optional and variant fields: schema/optional-and-variant.md";
    "  - Constraints and validation: constraints.md"; "  - Reading: reading.md"; "  - Writing: writing.md";
    "  - Streams: streams.md"; "  - Compile time: compile-time.md"; "  - Errors: errors.md";
    "  - Reference: reference.md"; ""; "markdown_extensions:"; "  - x: y.md"] in
  nav_pages yml = pages /\ NoDup pages /\ check_nav (Some yml) (rev pages) = 0 /\
  check_nav (Some yml) ("more.md" :: pages) = 1 /\ check_nav None pages = 1 /\
  nav_problems yml ("more.md" :: tl pages) = [Unlisted "more.md"; Nowhere "index.md"].
Proof.
  cbv zeta. split; [vm_compute; reflexivity|].
  split; [repeat constructor; simpl; intuition discriminate|]. vm_compute. auto.
Qed.

Example C99_reported_case :
  reported ["a"; "b"] ["a"; "c"] = Some 2 /\ reported ["a"] ["a"; "c"] = Some 2.
Proof. vm_compute. auto. Qed.
