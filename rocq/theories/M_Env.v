(** * Environments and child commands
    (instrument/build/{env,build}.go, support/cmd/cmd.go, cmd/xgo/test-explorer/config.go) *)
From Coq Require Import Ascii String List Arith Bool Lia.
From Verif Require Import M_Str M_Coverage M_Download.
Import ListNotations.
Open Scope nat_scope.
Open Scope list_scope.

(** An environment is the list of its entries. *)
Definition env := list bytes.
(** path/filepath.Abs on unix, in the working directory [wd] *)
Definition Abs (wd p : bytes) : bytes := if rooted p then Clean p else Join wd p.
Definition trim_prefix (s w : bytes) : bytes := if has_prefix s w then skipn (length w) s else s.
Definition trim_suffix (s w : bytes) : bytes := if has_suffix s w then firstn (length s - length w) s else s.

(** ** instrument/build/env.go *)
(** env.go:13-15 *)
Definition AppendNativeBuildEnv (e : env) : env := e ++ [#"GOOS="; #"GOARCH="].
(** env.go:83-95: the loop *)
Fixpoint without (e : env) (lastPath : bytes) : env * bytes :=
  match e with
  | [] => ([], lastPath)
  | x :: r =>
      if has_prefix x #"GOROOT=" then without r lastPath
      else if has_prefix x #"PATH=" then without r x
      else let (n, p) := without r lastPath in (x :: n, p)
  end.
(** env.go:77-106; filepath.ListSeparator on unix is ":". *)
Definition MakeGorootEnv (wd : bytes) (e : env) (goroot : bytes) : env :=
  let goroot := Abs wd goroot in
  let (newEnv, lastPath) := without e [] in
  let gorootBin := Join goroot #"bin" in
  let pathEnv := match lastPath with [] => gorootBin | _ => gorootBin ++ #":" ++ trim_prefix lastPath #"PATH=" end in
  newEnv ++ [#"GOROOT=" ++ goroot; #"PATH=" ++ pathEnv].
(** env.go:20-25 *)
Definition EnvForNative (wd : bytes) (e : env) (goroot : bytes) : env :=
  AppendNativeBuildEnv (MakeGorootEnv wd e goroot) ++ [#"GOEXPERIMENT="].

(** ** os.Getenv and os/exec: of entries for the same name the last one counts (exec dedups
    the environment of a command in this way; an environment without repetitions is read
    the same from both ends). *)
Fixpoint getenv (k : bytes) (e : env) : option bytes :=
  match e with
  | [] => None
  | x :: r => match getenv k r with
              | Some v => Some v
              | None => if has_prefix x (k ++ #"=") then Some (skipn (length (k ++ #"=")) x) else None
              end
  end.
(** os.Getenv: "" when unset *)
Definition Getenv (k : bytes) (e : env) : bytes := match getenv k e with Some v => v | None => [] end.

(** ** support/cmd/cmd.go *)
Record builder := { b_env : env; b_noInherit : bool; b_ignoreError : bool }.
Definition given (c : option builder) : env := match c with Some b => b_env b | None => [] end.
Definition inherits (c : option builder) : bool := match c with Some b => negb (b_noInherit b) | None => true end.
(** cmd.go:152-164; an exec.Cmd whose Env is nil gets the parent's. *)
Definition child_env (parent : env) (c : option builder) : env :=
  match given c with
  | [] => if inherits c then parent else []
  | g => (if inherits c then parent else []) ++ g
  end.
(** cmd.go:174-184: what Output returns, for what the command wrote and whether it failed;
    simplification: no writer for the output is set. *)
Definition cr : bytes := [ascii_of_nat 13].
Definition lf : bytes := [ascii_of_nat 10].
Definition Output (c : option builder) (out : bytes) (failed : bool) : bytes * bool :=
  let s := trim_suffix (trim_suffix out cr) lf in
  if failed then
    match c with
    | Some b => if negb (b_ignoreError b) then (s, true) else (s, false)
    | None => (s, false)
    end
  else (s, false).
(** cmd.go:110-113, 169-172 *)
Definition Run (c : option builder) (failed : bool) : bool := failed.

(** ** cmd/xgo/test-explorer/config.go:94-110; [parse_int] is strconv.ParseInt on a 64-bit
    number, None its error; simplification: negative numbers are errors, both give false. *)
Definition getXgoSupportsMockRule (parse_int : bytes -> option nat) (out : bytes) (failed : bool) : bool :=
  let (v, err) := Output None out failed in
  if err then false
  else if negb (has_prefix v #"1.0.") then true
  else match parse_int (trim_prefix v #"1.0.") with None => false | Some n => 44 <? n end.

(** ** instrument/build/build.go *)
Record host := { h_os : bytes; h_arch : bytes }.
Record goversion := { g_major : nat; g_minor : nat }.
(** env.go:53-58 *)
Definition GetTargetGOOS (h : host) (e : env) : bytes := match Getenv #"GOOS" e with [] => h_os h | s => s end.
(** build.go:58-69 *)
Definition NeedExternalLinker (h : host) (e : env) (v : option goversion) : bool :=
  if negb (eqs (h_os h) #"darwin") || negb (eqs (h_arch h) #"arm64") then false
  else if negb (eqs (GetTargetGOOS h e) #"darwin") then false
  else match v with None => false | Some v => (g_major v =? 1) && (g_minor v <? 23) end.
(** build.go:71-76 *)
Definition ExternalLinkerFlags (h : host) (e : env) (v : option goversion) : list bytes :=
  if NeedExternalLinker h e v then [#"-ldflags=-linkmode=external"] else [].
(** what is run: the program, its arguments, its directory and its environment *)
Record command := { c_bin : bytes; c_args : list bytes; c_dir : bytes; c_env : env }.
(** build.go:13-39, on unix; simplification: the empty package argument is left out. *)
Definition BuildNativeBinary (wd : bytes) (e : env) (goroot dir : bytes) (flags : list bytes) (outputDir outputName arg : bytes) : command :=
  {| c_bin := Join (Join goroot #"bin") #"go";
     c_args := [#"build"; #"-o"; Join outputDir outputName] ++ flags ++ [arg];
     c_dir := dir;
     c_env := child_env e (Some {| b_env := EnvForNative wd e goroot ++ [#"GO_BYPASS_XGO=true"]; b_noInherit := true; b_ignoreError := false |}) |}.
(** build.go:78-82, 96-106 *)
Definition RebuildGoBinary (wd : bytes) (h : host) (e : env) (goroot : bytes) (v : option goversion) : command :=
  let goroot := Abs wd goroot in
  BuildNativeBinary wd e goroot (Join goroot #"src") (#"-a" :: ExternalLinkerFlags h e v) (Join goroot #"bin") #"go" #"./cmd/go".
(** build.go:84-88, 108-122, tool.go: the directory of the tools, [tool] *)
Definition RebuildGoToolCompile (wd : bytes) (h : host) (e : env) (goroot tool : bytes) (v : option goversion) : command :=
  let goroot := Abs wd goroot in
  BuildNativeBinary wd e goroot (Join goroot #"src") (#"-a" :: ExternalLinkerFlags h e v) tool #"compile" #"./cmd/compile".
