(** * Model of the test explorer: listing tests and choosing what to run
    (cmd/xgo/test-explorer/main.go, parse.go, run.go) *)
From Coq Require Import Ascii String List Arith Bool Lia Permutation.
From Verif Require Import M_Str.
Import ListNotations.
Open Scope nat_scope. Open Scope list_scope.

(** main.go:198-202; main.go:231-257 TestingItem, of which Key (equal to Name), File, Line, Error, State and
    HasTestGoFiles are left out. *)
Inductive kind := KDir | KFile | KCase.
Record head := { i_name : bytes; i_under : bytes (* NameUnderPkg *); i_rel : bytes (* RelPath *); i_kind : kind; i_cases : bool (* HasTestCases *) }.
Inductive item := Item (h : head) (children : list item).
Definition hd (it : item) : head := match it with Item h _ => h end.
Definition children (it : item) : list item := match it with Item _ c => c end.

(** A function declaration: what parseTestFuncsCode asks (109-120), then what the go command asks. *)
Record fdecl := { d_name : bytes; d_body : bool; d_params : nat (* entries of Params.List *); d_recv : bool; d_testing_T : bool (* the parameter is one *testing.T *); d_results : bool; d_generic : bool }.
(** A file, and the declarations of it if it can be parsed; a directory, and whether go.mod is in it.  On
    unix: the separator is '/'. *)
Inductive node := NFile (name : bytes) (decls : option (list fdecl)) | NDir (name : bytes) (gomod : bool) (sub : list node).

(** parse.go:93-124 parseTestFuncs. *)
Definition is_test_func (d : fdecl) : bool := has_prefix (d_name d) #"Test" && d_body d && (d_params d =? 1).
(** parse.go:67-91 parseTests, with main.go:702-704. *)
Definition case_item (rel : bytes) (d : fdecl) : item :=
  Item {| i_name := d_name d; i_under := d_name d; i_rel := rel; i_kind := KCase; i_cases := false |} [].
Definition parse_tests (rel : bytes) (ds : list fdecl) : list item := map (case_item rel) (filter is_test_func ds).
(** fileutil.WalkRelative: the path relative to the root of the walk. *)
Definition child_path (rel name : bytes) : bytes := match rel with [] => name | _ => rel ++ #"/" ++ name end.
(** main.go:623-626. *)
Definition rooted (sub rel : bytes) : bytes := match sub with [] => rel | _ => match rel with [] => sub | _ => sub ++ #"/" ++ rel end end.
(** main.go:685-713: a file that can not be parsed stays without cases. *)
Definition file_item (name rel : bytes) (ds : option (list fdecl)) : item :=
  let cases := match ds with Some ds => parse_tests rel ds | None => [] end in
  Item {| i_name := name; i_under := []; i_rel := rel; i_kind := KFile; i_cases := match cases with [] => false | _ => true end |} cases.
Definition file_with_cases (it : item) : bool := match i_kind (hd it) with KFile => i_cases (hd it) | _ => false end.
(** main.go:622-715 for one entry of the walk and all below it.  A walk calls the function for a directory
    before the entries in it, so that getParent (613-619) finds the item of the directory: here the children
    are made with the item.  [excl]: excludePatterns.MatchAnyPrefix, false if there are no patterns (630).
    708-711: a file with cases marks the directory too. *)
Fixpoint scan (excl : bytes -> bool) (sub rel : bytes) (n : node) : list item :=
  match n with
  | NFile name ds =>
      let r := child_path rel name in
      if excl (rooted sub r) then []
      else if negb (has_suffix r #"_test.go") then []
      else [file_item name r ds]
  | NDir name gomod ns =>
      let r := child_path rel name in
      if excl (rooted sub r) then []
      else if eqs (rooted sub r) #"vendor" then []
      else if gomod then []
      else let c := flat_map (scan excl sub r) ns in
           [Item {| i_name := name; i_under := []; i_rel := r; i_kind := KDir; i_cases := existsb file_with_cases c |} c]
  end.
(** main.go:603-611, 627-645: the root; [ns]: what its directory holds. *)
Definition scan_root (excl : bytes -> bool) (sub name : bytes) (ns : list node) : item :=
  let c := if match sub with [] => false | _ => excl sub end then [] else flat_map (scan excl sub []) ns in
  Item {| i_name := name; i_under := []; i_rel := []; i_kind := KDir; i_cases := existsb file_with_cases c |} c.
(** parse.go:38-65 filterItem with withCases (all calls have it, main.go:422, 454). *)
Definition is_case (h : head) : bool := match i_kind h with KCase => true | _ => false end.
Fixpoint filter_item (it : item) : option item :=
  match it with Item h c =>
    let c' := flat_map (fun x => match filter_item x with Some y => [y] | None => [] end) c in
    match c' with [] => if is_case h then Some (Item h []) else None | _ => Some (Item h c') end
  end.
(** main.go:723: the result is dropped: the root stays, with the children that the call left in it. *)
Definition filter_root (it : item) : item := Item (hd it) (flat_map (fun x => match filter_item x with Some y => [y] | None => [] end) (children it)).
(** main.go:729-748 sortByKindAndName: sort.Slice moves the children of each item; only that it keeps them is
    modelled.  (The order it asks for is no order when cases are compared: it compares their places.) *)
Inductive sorted_from : item -> item -> Prop :=
| sorted_item h c c1 c2 : Forall2 sorted_from c c1 -> Permutation c1 c2 -> sorted_from (Item h c) (Item h c2).
(** main.go:588-727 scanTests. *)
Definition listing (excl : bytes -> bool) (sub name : bytes) (ns : list node) (root : item) : Prop := sorted_from (filter_root (scan_root excl sub name ns)) root.

(** run.go:160-169. *)
Definition split_item_paths (rel : bytes) : list bytes := match rel with [] => [] | _ => split "/"%char rel end.
Definition file_item_path (prefix : list bytes) (rel : bytes) : list bytes := prefix ++ split_item_paths rel.
(** run.go:178-184 getCaseItemPath. *)
Definition case_item_path (prefix : list bytes) (rel name under : bytes) : list bytes :=
  match under with [] => file_item_path prefix rel ++ [name] | _ => file_item_path prefix rel ++ split "/"%char under end.
(** filepath.Dir of a clean relative path. *)
Definition dir_of_file (rel : bytes) : bytes := match cut_last "/"%char rel with Some (d, _) => d | None => #"." end.
(** run.go:187-203 getAllSubRelPaths: relPaths, then itemPaths. *)
Definition own_paths (h : head) : list bytes := match i_kind h with KDir => if i_cases h then [i_rel h] else [] | _ => [] end.
Definition own_item_path (prefix : list bytes) (h : head) : list bytes :=
  match i_kind h with KCase => case_item_path prefix (i_rel h) (i_name h) (i_under h) | _ => file_item_path prefix (i_rel h) end.
Fixpoint all_paths (it : item) : list bytes := match it with Item h c => own_paths h ++ flat_map all_paths c end.
Fixpoint all_item_paths (prefix : list bytes) (it : item) : list (list bytes) :=
  match it with Item h c => own_item_path prefix h :: flat_map (all_item_paths prefix) c end.
(** run.go:205-214 getFileSubCases. *)
Definition sub_cases (it : item) : list bytes := map (fun x => i_name (hd x)) (filter (fun x => is_case (hd x)) (children it)).
(** run.go:127-158 getTestPaths: paths, itemPaths, names (nil: None). *)
Definition get_test_paths (it : item) (prefix : list bytes) : list bytes * list (list bytes) * option (list bytes) :=
  let h := hd it in
  match i_kind h with
  | KCase => ([dir_of_file (i_rel h)], [case_item_path prefix (i_rel h) (i_name h) (i_under h)],
              Some [match i_under h with [] => i_name h | u => u end])
  | KFile => let p := file_item_path prefix (i_rel h) in
             ([dir_of_file (i_rel h)], p :: map (fun c => p ++ [c]) (sub_cases it), Some (sub_cases it))
  | KDir => (all_paths it, all_item_paths prefix it, None)
  end.
(** run.go:80-89 formatPathArgs. *)
Definition format_path_args (paths : list bytes) : list bytes := map (fun p => #"./" ++ p) paths.
(** run.go:105-116 escapeRegexName. *)
Definition escape_char (c : ascii) : bytes := if containsc c #"{}[]|" then #"\" ++ [c] else [c].
Definition escape_name (s : bytes) : bytes := flat_map escape_char s.
(** run.go:90-95 formatRunNames. *)
Definition format_run_names (names : option (list bytes)) : bytes :=
  match names with None => [] | Some l => #"^" ++ join #"|" (map escape_name l) ++ #"$" end.
(** run.go:118-125 joinTestArgs. *)
Definition join_test_args (path_args : list bytes) (run : bytes) : list bytes :=
  match run with [] => [] | _ => [#"-run"; run] end ++ path_args.
(** main.go:426-429 and run_session.go:241, 346-359: the arguments that choose the packages and tests. *)
Definition test_args (it : item) (prefix : list bytes) : list bytes :=
  let '(paths, _, names) := get_test_paths it prefix in join_test_args (format_path_args paths) (format_run_names names).
