(** * Preparing xgo/runtime for a build: version and flag lines, the local copy of the
    runtime, the repair of old runtimes
    (instrument/instrument_xgo_runtime/{parse,legacy,link}.go, cmd/xgo/trace.go,
    cmd/xgo/instrument.go, instrument/embed) *)
From Coq Require Import Ascii String List Arith Bool Lia.
From Verif Require Import M_Str M_Coverage.
Import ListNotations.
Open Scope nat_scope.
Open Scope list_scope.

Definition nl : ascii := ascii_of_nat 10.
Definition dq : bytes := [ascii_of_nat 34].

(** parse.go:111-124 *)
Definition replaceByLine (code pattern replacement : bytes) : bytes :=
  match index code pattern with
  | None => code
  | Some idx =>
      let base := idx + length pattern in
      match index (skipn base code) [nl] with
      | None => code
      | Some e => firstn idx code ++ replacement ++ skipn (base + e) code
      end
  end.
(** parse.go:74-79; simplification: the number is its decimal text (strconv.Itoa). *)
Definition ReplaceActualXgoVersion (code version revision number : bytes) : bytes :=
  let code := replaceByLine code #"const XGO_VERSION = " (#"const XGO_VERSION = " ++ dq ++ version ++ dq) in
  let code := replaceByLine code #"const XGO_REVISION = " (#"const XGO_REVISION = " ++ dq ++ revision ++ dq) in
  replaceByLine code #"const XGO_NUMBER = " (#"const XGO_NUMBER = " ++ number).
(** fmt %t *)
Definition bool_text (b : bool) : bytes := if b then #"true" else #"false".
(** parse.go:103-108; [quoted] is the directory as fmt %q writes it. *)
Definition InjectFlags (code : bytes) (trace : bool) (quoted : bytes) (race_safe : bool) : bytes :=
  let code := replaceByLine code #"const COLLECT_TEST_TRACE = " (#"const COLLECT_TEST_TRACE = " ++ bool_text trace) in
  let code := replaceByLine code #"const COLLECT_TEST_TRACE_DIR = " (#"const COLLECT_TEST_TRACE_DIR = " ++ quoted) in
  replaceByLine code #"const XGO_RACE_SAFE = " (#"const XGO_RACE_SAFE = " ++ bool_text race_safe).
(** parse.go:81-101; [unquote] is strconv.Unquote, None its error; None: an error. *)
Definition ParseCoreVersion (unquote : bytes -> option bytes) (code : bytes) : option bytes :=
  match index code #"const VERSION =" with
  | None => None
  | Some idx =>
      let i := idx + length #"const VERSION =" in
      match index (skipn i code) [nl] with
      | None => None
      | Some e => match unquote (trim_space (firstn e (skipn i code))) with
                  | Some [] | None => None
                  | Some v => Some v
                  end
      end
  end.

(** ** The repair of runtime v1.1.0 (legacy.go:128-181) *)
Definition recvAnchor : bytes := #"var resObject object".
Definition oldBuggyCheck : bytes := #"if actRecvPtr != nil {".
Definition fixedCheck : bytes := #"if recvPtr == nil && actRecvPtr != nil {".
(** legacy.go:161-181 *)
Definition replaceContentAfter (content anchor old new : bytes) : option bytes :=
  match index content anchor with
  | None => None
  | Some idx =>
      let anchorEnd := idx + length anchor in
      match index (skipn anchorEnd content) old with
      | None => None
      | Some oldIdx => let oldStart := anchorEnd + oldIdx in Some (firstn oldStart content ++ new ++ skipn (oldStart + length old) content)
      end
  end.
(** legacy.go:142-148: the loop, as a relation, so that not ending can be told. *)
Inductive fix_loop : bytes -> bytes -> Prop :=
| fix_done c : replaceContentAfter c recvAnchor oldBuggyCheck fixedCheck = None -> fix_loop c c
| fix_more c c' r : replaceContentAfter c recvAnchor oldBuggyCheck fixedCheck = Some c' -> fix_loop c' r -> fix_loop c r.

(** ** The local copy of the runtime (cmd/xgo/trace.go:116-138, 219-270, 431-484;
    cmd/xgo/instrument.go:66-92; link.go:126-152, 206-213). The directory
    .xgo/gen/modules/... of the project stays from run to run; with Go 1.25 and later every
    run uses it. A directory is the list of its files. *)
Definition file := (bytes * bytes)%type.
Definition dir := list file.
Fixpoint lookup (p : bytes) (d : dir) : option bytes :=
  match d with [] => None | (q, c) :: r => if eqs q p then Some c else lookup p r end.
Definition remove (p : bytes) (d : dir) : dir := filter (fun f => negb (eqs (fst f) p)) d.
Inductive op := Put (p c : bytes) | Remove (p : bytes) | Rename (p q : bytes).
Definition apply_op (d : dir) (o : op) : dir :=
  match o with
  | Put p c => (p, c) :: remove p d
  | Remove p => remove p d
  | Rename p q => match lookup p d with Some c => (q, c) :: remove q (remove p d) | None => d end
  end.
Definition version_go : bytes := #"core/version.go".
Definition flags_go : bytes := #"internal/flags/flags.go".
Definition trace_go : bytes := #"trace/trace.go".
Definition go_mod_txt : bytes := #"go.mod.txt".
Definition go_mod : bytes := #"go.mod".
(** the value of a constant on a line of its own; simplification of goparse.ExtractConstants,
    which parses the file. *)
Fixpoint first_line (pattern : bytes) (ls : list bytes) : option bytes :=
  match ls with
  | [] | [_] => None
  | l :: r => if has_prefix l pattern then Some (skipn (length pattern) l) else first_line pattern r
  end.
Definition const_value (name code : bytes) : option bytes := first_line (#"const " ++ name ++ #" = ") (split nl code).
Section Copy.
  (** the files that xgo brings, in the order of fs.WalkDir; what strconv.Atoi makes of a
      text, 0 for an error or a negative number *)
  Variable embed : dir.
  Variable atoi : bytes -> nat.
  Definition number_of (code : bytes) : nat := match const_value #"NUMBER" code with Some t => atoi t | None => 0 end.
  (** trace.go:431-484; simplification: reading cannot fail otherwise. *)
  Definition needCopy (d : dir) : bool :=
    match lookup version_go d with
    | None | Some [] => true
    | Some fs =>
        match lookup version_go embed with
        | None => true
        | Some em => (number_of fs =? 0) || (number_of em =? 0) || (number_of fs <? number_of em)
        end
    end.
  Record opts := { o_force : bool; o_trace : bool; o_dir : bytes; o_dir_quoted : bytes; o_race : bool }.
  Record xgo := { x_version : bytes; x_revision : bytes; x_number : bytes }.
  (** trace.go:226-268: what is written, in order; None: an error, because there is no
      directory to write trace.go to. os.RemoveAll removes one file after the other. *)
  Definition in_trace (f : file) : bool := has_prefix (fst f) #"trace/".
  Definition load_ops (force : bool) (d : dir) : option (list op) :=
    if force || needCopy d then
      Some (map (fun f => Remove (fst f)) d ++ map (fun f => Put (fst f) (snd f)) embed ++ [Rename go_mod_txt go_mod])
    else if existsb in_trace d then
      match lookup trace_go embed with Some c => Some [Put trace_go c] | None => None end
    else None.
  (** link.go:126-152 and 206-213; simplification: trace.go and runtime_link.go, which are
      written from what xgo brings in every run, are left out, and so is the switching off
      of the check of versions (its text is M_Patch's). *)
  Definition any_flag (o : opts) : bool := o_trace o || negb (eqs (o_dir o) []) || o_race o.
  Definition link_ops (x : xgo) (o : opts) (d : dir) : list op :=
    match lookup version_go d with
    | Some c => [Put version_go (ReplaceActualXgoVersion c (x_version x) (x_revision x) (x_number x))]
    | None => []
    end ++
    match lookup flags_go d with
    | Some c => if any_flag o then [Put flags_go (InjectFlags c (o_trace o) (o_dir_quoted o) (o_race o))] else []
    | None => []
    end.
  Definition apply_ops (d : dir) (ops : list op) : dir := fold_left apply_op ops d.
  (** one run, to its end *)
  Definition run (x : xgo) (d : dir) (o : opts) : option dir :=
    match load_ops (o_force o) d with
    | None => None
    | Some ops => let d' := apply_ops d ops in Some (apply_ops d' (link_ops x o d'))
    end.
  (** one run that is killed after [k] of its writes *)
  Definition killed (x : xgo) (d : dir) (o : opts) (k : nat) : dir :=
    match load_ops (o_force o) d with
    | None => d
    | Some ops => let d' := apply_ops d ops in apply_ops d (firstn k (ops ++ link_ops x o d'))
    end.
End Copy.
