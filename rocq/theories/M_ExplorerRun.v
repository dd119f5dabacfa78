(** * Model of a run of the test explorer: the events of a run and their paths
    (cmd/xgo/test-explorer/run_session.go, run_event.go, run.go) *)
From Coq Require Import Ascii String List Arith Bool Lia Permutation.
From Verif Require Import M_Str M_Explorer.
Import ListNotations.
Open Scope nat_scope. Open Scope list_scope.

(** ** Slices of strings
    All slices here begin at the start of their array: path[0] and path[1:] (507-541) are only read.  An array
    is a list as long as its capacity; array 0, of capacity 0, is that of nil. *)
Record slice := { s_arr : nat; s_len : nat }.
Definition heap := list (list bytes).
Definition nil_slice : slice := {| s_arr := 0; s_len := 0 |}.
Definition arr (h : heap) (s : slice) : list bytes := nth (s_arr s) h [].
Definition read (h : heap) (s : slice) : list bytes := firstn (s_len s) (arr h s).
Definition set_arr (h : heap) (i : nat) (a : list bytes) : heap := firstn i h ++ a :: skipn (S i) h.
(** A new array holding [l], with [extra] more slots. *)
Definition alloc (h : heap) (l : list bytes) (extra : nat) : heap * slice :=
  (h ++ [l ++ repeat [] extra], {| s_arr := length h; s_len := length l |}).
(** The built-in append.  [grow]: by how much the runtime rounds capacities up. *)
Definition append (grow : nat -> nat -> nat) (h : heap) (s : slice) (xs : list bytes) : heap * slice :=
  let need := s_len s + length xs in
  let cap := length (arr h s) in
  if need <=? cap
  then (set_arr h (s_arr s) (firstn (s_len s) (arr h s) ++ xs ++ skipn need (arr h s)), {| s_arr := s_arr s; s_len := need |})
  else alloc h (read h s ++ xs) (grow cap need).

(** ** The statuses known (run_session.go:498-556 pathMapping) *)
Inductive pmap := PM (record : option bytes) (m : list (bytes * pmap)).
Definition pm_record (c : pmap) : option bytes := match c with PM r _ => r end.
Definition pm_sub (c : pmap) : list (bytes * pmap) := match c with PM _ m => m end.
(** 225 *)
Definition pm0 : pmap := PM None [].
Fixpoint find_key (m : list (bytes * pmap)) (k : bytes) : option pmap :=
  match m with [] => None | (k', v) :: r => if eqs k' k then Some v else find_key r k end.
Fixpoint set_key (m : list (bytes * pmap)) (k : bytes) (v : pmap) : list (bytes * pmap) :=
  match m with [] => [(k, v)] | (k', v') :: r => if eqs k' k then (k', v) :: r else (k', v') :: set_key r k v end.
(** 507-519 Get: the pair (false, "") is None. *)
Fixpoint pm_get (c : pmap) (path : list bytes) : option bytes :=
  match path with
  | [] => pm_record c
  | k :: r => match find_key (pm_sub c) k with None => None | Some sub => pm_get sub r end
  end.
(** 521-541 Set *)
Fixpoint pm_set (c : pmap) (path : list bytes) (status : bytes) : pmap :=
  match path with
  | [] => PM (Some status) (pm_sub c)
  | k :: r => let sub := match find_key (pm_sub c) k with None => pm0 | Some sub => sub end in
              PM (pm_record c) (set_key (pm_sub c) k (pm_set sub r status))
  end.
(** The order in which a run of 553-555 ranges over the maps: any. *)
Inductive reordered : pmap -> pmap -> Prop :=
| reordered_pm r m m1 m2 : Forall2 (fun a b => fst a = fst b /\ reordered (snd a) (snd b)) m m1 -> Permutation m1 m2 -> reordered (PM r m) (PM r m2).

(** ** Events (run.go:24-44) *)
Inductive ekind := ItemStatus | MergeTree | ErrorMsg | TestStart | TestEnd | UpdateTrace.
(** The item of a MergeTree event (run.go:249-271): names and NameUnderPkg of the chain, down to the subtest;
    RelPath; the rest (File, Line..) is copied from the top-level test. *)
Record mitem := { m_base : bytes (* BaseCaseName *); m_rel : bytes; m_chain : list (bytes * bytes) }.
Record event := { e_kind : ekind; e_item : option mitem; e_path : slice; e_status : bytes; e_msg : bytes }.
Definition status_running := #"running".
Definition status_success := #"success".
Definition status_fail := #"fail".
Definition status_skip := #"skip".
Definition status_not_run := #"not_run".

(** The state of a run: memory, pm, and the events sent so far with the memory at that time. *)
Record rstate := { r_heap : heap; r_pm : pmap; r_log : list (event * heap) }.
(** 226-234 sendEvent *)
Definition send (st : rstate) (e : event) : rstate :=
  {| r_heap := r_heap st;
     r_pm := match e_kind e with
             | ItemStatus => match e_status e with [] => r_pm st | _ => pm_set (r_pm st) (read (r_heap st) (e_path e)) (e_status e) end
             | _ => r_pm st
             end;
     r_log := r_log st ++ [(e, r_heap st)] |}.
Definition send_all (st : rstate) (es : list event) : rstate := fold_left send es st.
Definition with_heap (st : rstate) (h : heap) : rstate := {| r_heap := h; r_pm := r_pm st; r_log := r_log st |}.

(** ** From a line of go test -json to events *)
(** run.go:230-238 TestEvent, without Time and Elapsed. *)
Record test_event := { t_action : bytes; t_package : bytes; t_test : bytes; t_output : bytes }.
(** run_event.go:13-22 *)
Definition status_of_action (a : bytes) : bytes :=
  if eqs a #"run" then status_running else if eqs a #"pass" then status_success
  else if eqs a #"fail" then status_fail else if eqs a #"skip" then status_skip else [].
(** run.go:240-246 getPkgSubPath *)
Definition pkg_sub_path (mod_path pkg : bytes) : bytes :=
  if negb (has_prefix pkg mod_path) then []
  else let r := skipn (length mod_path) pkg in if has_prefix r #"/" then skipn 1 r else r.
(** run_session.go:185-196 and parse.go:14-36, 67-91: RelPath of the first test so named in the directory.
    [dir]: the content of the directory at a path below absDir, in the order of os.ReadDir; None if it can not
    be read.  The cache (168-171, 181) is left out: files do not change during a run. *)
Fixpoint parse_files (rel : bytes) (ns : list node) : option (list item) :=
  match ns with
  | [] => Some []
  | NDir _ _ _ :: r => parse_files rel r
  | NFile name ds :: r =>
      if negb (has_suffix name #"_test.go") then parse_files rel r
      else match ds with
           | None => None
           | Some ds => match parse_files rel r with None => None | Some l => Some (parse_tests (child_path rel name) ds ++ l) end
           end
  end.
Definition resolve_test (dir : bytes -> option (list node)) (dir_pkg pkg name : bytes) : option bytes :=
  let sub := if eqs dir_pkg pkg then [] else pkg_sub_path dir_pkg pkg in
  if negb (eqs dir_pkg pkg) && match sub with [] => true | _ => false end then None
  else match dir sub with
       | None => None
       | Some ns => match parse_files sub ns with
                    | None => None
                    | Some items => match find (fun it => eqs (i_name (hd it)) name) items with Some it => Some (i_rel (hd it)) | None => None end
                    end
       end.
(** run.go:249-271 makeMergeTree *)
Fixpoint merge_chain (sub_path : list bytes) (prefix : bytes) (last : bytes * bytes) : list (bytes * bytes) :=
  match sub_path with [] => [last] | k :: r => (k, prefix ++ #"/" ++ k) :: merge_chain r (prefix ++ #"/" ++ k) last end.

Section Run.
Variable grow : nat -> nat -> nat.
(** run.go:171-176 appendCopy *)
Definition append_copy (h : heap) (l incoming : list bytes) : heap * slice := alloc h (l ++ incoming) 0.
(** run.go:178-184 getCaseItemPath with nameUnderPkg "" *)
Definition case_path (h : heap) (prefix : list bytes) (rel name : bytes) : heap * slice :=
  let '(h, s) := append_copy h prefix (split_item_paths rel) in append grow h s [name].
(** run_event.go:71-77 *)
Fixpoint running_events (h : heap) (base : slice) (suffix : list bytes) (todo i : nat) : heap * list event :=
  match todo with
  | 0 => (h, [])
  | S n => let '(h, p) := append grow h base (firstn (S i) suffix) in
           let '(h, es) := running_events h base suffix n (S i) in
           (h, {| e_kind := ItemStatus; e_item := None; e_path := p; e_status := status_running; e_msg := [] |} :: es)
  end.
(** run_event.go:9-106 buildEvent.  [resolve]: resolveTestingItem, its error dropped (39).  The item that
    goes with the status of a test (92) is left out. *)
Definition build_event (prefix : list bytes) (mod_path : bytes) (resolve : bytes -> bytes -> option bytes)
    (h : heap) (pm : pmap) (t : test_event) : heap * list event :=
  let status := status_of_action (t_action t) in
  let '(h, pre, base, path) :=
    match t_package t with
    | [] => (h, [], None, nil_slice)
    | _ =>
        match t_test t with
        | [] =>
            let '(h, p) := append_copy h prefix [] in                                              (* 82-86 *)
            match pkg_sub_path mod_path (t_package t) with
            | [] => (h, [], None, p)
            | sub => let '(h, p) := append grow h p (split "/"%char sub) in (h, [], None, p)
            end
        | _ =>
            let '(base_test, test_suffix) := match cut_first "/"%char (t_test t) with Some (b, s) => (b, s) | None => (t_test t, []) end in
            match resolve (t_package t) base_test with
            | None => (h, [], None, nil_slice)
            | Some rel =>
                let '(h, p) := case_path h prefix rel base_test in
                match test_suffix with
                | [] => (h, [], None, p)
                | _ =>
                    let suffix := split "/"%char test_suffix in
                    let base := p in
                    let '(h, p) := append grow h base suffix in                                    (* 45 *)
                    match pm_get pm (read h p) with
                    | Some _ => (h, [], Some base, p)
                    | None =>
                        let chain := merge_chain (removelast suffix) base_test (last suffix [], t_test t) in
                        let m := {| e_kind := MergeTree; e_item := Some {| m_base := base_test; m_rel := rel; m_chain := chain |};
                                    e_path := base; e_status := []; e_msg := [] |} in
                        let '(h, es) := running_events h base suffix (length suffix) 0 in
                        (h, m :: es, Some base, p)
                    end
                end
            end
        end
    end in
  (h, pre ++ {| e_kind := ItemStatus; e_item := None; e_path := path; e_status := status; e_msg := t_output t |} ::
      match base with Some b => if 0 <? s_len b then [{| e_kind := ItemStatus; e_item := None; e_path := b; e_status := []; e_msg := t_output t |}] else [] | None => [] end).

(** 625 failRegex: FAIL, blanks, a word, blanks, the rest. *)
Definition is_ws (c : ascii) : bool := containsc c [" "%char; "009"%char; "010"%char; "012"%char; "013"%char].
Fixpoint span (f : ascii -> bool) (s : bytes) : bytes * bytes :=
  match s with c :: r => if f c then let '(a, b) := span f r in (c :: a, b) else ([], s) | [] => ([], []) end.
Definition fail_pkg (line : bytes) : option bytes :=
  if negb (has_prefix line #"FAIL") then None
  else let '(b1, r1) := span is_ws (skipn 4 line) in
       let '(word, r2) := span (fun c => negb (is_ws c)) r1 in
       let '(b2, _) := span is_ws r2 in
       match b1, word, b2 with _ :: _, _ :: _, _ :: _ => Some word | _, _, _ => None end.
(** What a builder makes of a line: events, an error, or a crash of the process. *)
Inductive built := BOk (h : heap) (es : list event) | BErr (msg : bytes) | BPanic.
(** 617-658 build and parse.  [decode]: json.Unmarshal of a line into a TestEvent, or its error; a line
    that begins with a brace is not null.  parse returns nil for other lines than failRegex's, and buildEvent
    then reads a field of nil (run_event.go:13).  650-652: prefix is empty when joined. *)
Definition json_build (decode : bytes -> test_event + bytes) (prefix : list bytes) (mod_path : bytes)
    (resolve : bytes -> bytes -> option bytes) (h : heap) (pm : pmap) (line : bytes) : built :=
  if has_prefix line #"{"
  then match decode line with
       | inl t => let '(h, es) := build_event prefix mod_path resolve h pm t in BOk h es
       | inr msg => BErr msg
       end
  else match fail_pkg line with
       | Some pkg => let '(h, es) := build_event prefix mod_path resolve h pm
                       {| t_action := #"fail"; t_package := pkg; t_test := []; t_output := #"
" ++ line |} in BOk h es
       | None => BPanic
       end.
(** 268-274 plainMsgBuilder *)
Definition plain_build (root : slice) (h : heap) (line : bytes) : built :=
  BOk h [{| e_kind := ItemStatus; e_item := None; e_path := root; e_status := []; e_msg := line |}].
(** 585-603 consumeTestEvent over the lines of the scanner. *)
Inductive consumed := CEof (st : rstate) | CStop (st : rstate) (* returns before the end of its input *) | CCrash (st : rstate).
Fixpoint consume (build : heap -> pmap -> bytes -> built) (root : slice) (st : rstate) (lines : list bytes) : consumed :=
  match lines with
  | [] => CEof st
  | l :: r =>
      match build (r_heap st) (r_pm st) l with
      | BPanic => CCrash st
      | BErr msg => CStop (send st {| e_kind := ErrorMsg; e_item := None; e_path := root; e_status := []; e_msg := msg |})
      | BOk h es => consume build root (send_all (with_heap st h) es) r
      end
  end.

(** ** The end of a run *)
(** 429-439 trimPrefix *)
Fixpoint trim_prefix (path root : list bytes) : option (list bytes) :=
  match root, path with
  | [], _ => Some path
  | r :: root', p :: path' => if eqs p r then trim_prefix path' root' else None
  | _ :: _, [] => None
  end.
(** 393 *)
Definition pending (s : bytes) : bool := match s with [] => true | _ => eqs s status_running || eqs s status_not_run end.
(** 392-415, the function given to Range.  [trace]: None without --strace; else whether readTrace finds
    records for a suffix. *)
Definition at_end (trace : option (list bytes -> bool)) (root : slice) (st : rstate) (path : slice) (status : bytes) : rstate :=
  let st :=
    if pending status then
      let '(h, s0) := alloc (r_heap st) [] 0 in
      let '(h, p) := append grow h s0 (read h path) in
      send (with_heap st h) {| e_kind := ItemStatus; e_item := None; e_path := p; e_status := status_success; e_msg := [] |}
    else st in
  match trace with
  | None => st
  | Some has_records =>
      match trim_prefix (read (r_heap st) path) (read (r_heap st) root) with
      | Some suffix => if has_records suffix then send st {| e_kind := UpdateTrace; e_item := None; e_path := path; e_status := []; e_msg := [] |} else st
      | None => st
      end
  end.
(** 547-556 traverse, over the nodes in the order [t].  The node at [node] is looked at when it is reached:
    its status may have been changed by then. *)
Fixpoint traverse (f : rstate -> slice -> bytes -> rstate) (t : pmap) (node : list bytes) (prefix : slice) (st : rstate) {struct t} : rstate :=
  match t with
  | PM r m =>
      let st := match r with
                | None => st
                | Some _ => match pm_get (r_pm st) node with Some status => f st prefix status | None => st end
                end in
      (fix go (m : list (bytes * pmap)) (st : rstate) {struct m} : rstate :=
         match m with
         | [] => st
         | (k, v) :: m' => let '(h, p) := append grow (r_heap st) prefix [k] in go m' (traverse f v (node ++ [k]) p (with_heap st h))
         end) m st
  end.
(** 386-389: [err]: the message if go test failed. *)
Definition failed (root : slice) (err : option bytes) (st : rstate) : rstate :=
  match err with None => st | Some msg => send st {| e_kind := ItemStatus; e_item := None; e_path := root; e_status := status_fail; e_msg := msg |} end.
(** 392-419: [t]: the order in which Range goes. *)
Definition ending (trace : option (list bytes -> bool)) (root : slice) (t : pmap) (st : rstate) : rstate :=
  send (traverse (at_end trace root) t [] nil_slice st) {| e_kind := TestEnd; e_item := None; e_path := nil_slice; e_status := []; e_msg := [] |}.
End Run.
(** 225-255: the beginning.  [path]: c.path as the page sent it. *)
Definition root_path (path : list bytes) (item_paths : list (list bytes)) (prefix : list bytes) : list bytes :=
  match path with _ :: _ => path | [] => match item_paths with p :: _ => p | [] => prefix end end.
Definition begin_run (path : list bytes) (item_paths : list (list bytes)) (prefix : list bytes) (extra : nat) : rstate * slice :=
  let st := send {| r_heap := [[]]; r_pm := pm0; r_log := [] |} {| e_kind := TestStart; e_item := None; e_path := nil_slice; e_status := []; e_msg := [] |} in
  let pm := fold_left (fun pm p => pm_set pm p status_running) item_paths (r_pm st) in
  let '(h, root) := alloc (r_heap st) (root_path path item_paths prefix) extra in
  ({| r_heap := h; r_pm := pm; r_log := r_log st |}, root).
(** 276-293: the builder of events. *)
Definition builder (grow : nat -> nat -> nat) (single : bool) (decode : bytes -> test_event + bytes) (prefix : list bytes) (mod_path : bytes)
    (resolve : bytes -> bytes -> option bytes) (root : slice) (h : heap) (pm : pmap) (line : bytes) : built :=
  if single then plain_build root h line else json_build grow decode prefix mod_path resolve h pm line.
(** A run of the consumer of stdout (383-424) to its end: [lines] are all the lines of the output; [before]: when the
    test has ended and been marked failed if it has. *)
Inductive run_ends (grow : nat -> nat -> nat) (trace : option (list bytes -> bool)) (single : bool) (decode : bytes -> test_event + bytes) (mod_path : bytes)
    (resolve : bytes -> bytes -> option bytes) (path : list bytes) (item_paths : list (list bytes)) (prefix : list bytes) (lines : list bytes) (err : option bytes) (before after : rstate) : Prop :=
| run_ends_intro extra st0 root st1 t :
    begin_run path item_paths prefix extra = (st0, root) ->
    consume (builder grow single decode prefix mod_path resolve root) root st0 lines = CEof st1 ->
    before = failed root err st1 -> reordered (r_pm before) t -> after = ending grow trace root t before ->
    run_ends grow trace single decode mod_path resolve path item_paths prefix lines err before after.
