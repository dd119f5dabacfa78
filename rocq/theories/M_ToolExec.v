(** * exec_tool and go-tool-exec: the programs given to go build -toolexec
    (cmd/xgo/exec_tool/{main,option,tool_exec_main}.go) *)
From Coq Require Import Ascii String List Arith Bool Lia.
From Verif Require Import M_Str M_Version M_Download.
Import ListNotations.
Open Scope nat_scope.
Open Scope list_scope.

(** What becomes of an invocation: an error, a program with its arguments and the entries
    added to its environment, or the detour over a debugger (main.go:117-188, not modelled
    further). *)
Inductive outcome := Fails | Runs (bin : bytes) (args : list bytes) (extra : list bytes) | Debugs.

(** main.go:73-84 isCompileCommand on unix: the last element of the path *)
Definition base (p : bytes) : bytes := last (split slash p) [].
Definition isCompileCommand (cmd : bytes) : bool := eqs (base cmd) #"compile".
(** main.go:294-302 *)
Definition hasFlag (args : list bytes) (flag : bytes) : bool := existsb (fun a => eqs a flag || has_prefix a (flag ++ #"=")) args.
(** main.go:304-313 *)
Fixpoint findArgAfterFlag (args : list bytes) (flag : bytes) : bytes :=
  match args with
  | [] => []
  | a :: r => if eqs a flag then match r with v :: _ => v | [] => findArgAfterFlag r flag end else findArgAfterFlag r flag
  end.
(** option.go:9-22 *)
Record options := { o_enable : bool; o_log : bool; o_debug : bytes; o_dlv : bool; o_testCompile : bool; o_remain : list bytes }.
Definition no_options : options := {| o_enable := false; o_log := false; o_debug := []; o_dlv := false; o_testCompile := false; o_remain := [] |}.
(** option.go:24-89, called with stopAfterFirstArg; support/flag/flag.go for --debug *)
Fixpoint parseOptions (fuel : nat) (args : list bytes) (o : options) : option options :=
  let remain r := Some {| o_enable := o_enable o; o_log := o_log o; o_debug := o_debug o; o_dlv := o_dlv o; o_testCompile := o_testCompile o; o_remain := r |} in
  match fuel, args with
  | 0, _ | _, [] => Some o
  | S n, arg :: r =>
      if negb (has_prefix arg #"-") then remain r
      else if eqs arg #"--" then remain r
      else if eqs arg #"--enable" then parseOptions n r {| o_enable := true; o_log := o_log o; o_debug := o_debug o; o_dlv := o_dlv o; o_testCompile := o_testCompile o; o_remain := [] |}
      else if eqs arg #"--log-compile" then parseOptions n r {| o_enable := o_enable o; o_log := true; o_debug := o_debug o; o_dlv := o_dlv o; o_testCompile := o_testCompile o; o_remain := [] |}
      else if eqs arg #"--test-compile" then parseOptions n r {| o_enable := o_enable o; o_log := o_log o; o_debug := o_debug o; o_dlv := o_dlv o; o_testCompile := true; o_remain := [] |}
      else if eqs arg #"--debug-with-dlv" then parseOptions n r {| o_enable := o_enable o; o_log := o_log o; o_debug := o_debug o; o_dlv := true; o_testCompile := o_testCompile o; o_remain := [] |}
      else if eqs arg #"--debug" then
        match r with
        | [] => None
        | v :: r' => parseOptions n r' {| o_enable := o_enable o; o_log := o_log o; o_debug := v; o_dlv := o_dlv o; o_testCompile := o_testCompile o; o_remain := [] |}
        end
      else if has_prefix arg #"--debug=" then parseOptions n r {| o_enable := o_enable o; o_log := o_log o; o_debug := skipn 8 arg; o_dlv := o_dlv o; o_testCompile := o_testCompile o; o_remain := [] |}
      else None
  end.
(** main.go:86-247; [env] looks a variable up *)
Definition handleCompile (env : bytes -> option bytes) (cmd : bytes) (o : options) (args : list bytes) : outcome :=
  if hasFlag args #"-V" then Runs cmd args []
  else let pkgPath := findArgAfterFlag args #"-p" in
  if eqs pkgPath [] then Fails
  else if negb (eqs (o_debug o) []) && (eqs (o_debug o) #"all" || eqs (o_debug o) pkgPath) then Debugs
  else
    let getenv k := match env k with Some v => v | None => [] end in
    let enable := match env #"XGO_COMPILER_ENABLE" with Some v => v | None => if o_enable o then #"true" else [] end in
    let bin := match getenv #"XGO_COMPILER_BIN" with [] => cmd | s => s end in
    if negb (eqs (getenv #"XGO_DEBUG_COMPILE_PKG") []) && eqs (getenv #"XGO_DEBUG_COMPILE_PKG") pkgPath then Debugs
    else Runs bin args [#"XGO_COMPILER_ENABLE=" ++ enable; #"COMPILER_ALLOW_SYNTAX_REWRITE=true"; #"COMPILER_ALLOW_IR_REWRITE=true"].
(** main.go:26-71; the log is left out *)
Definition Main (env : bytes -> option bytes) (args : list bytes) : outcome :=
  match parseOptions (length args) args no_options with
  | None => Fails
  | Some o =>
      match o_remain o with
      | [] | [] :: _ => Fails
      | cmd :: toolArgs => if negb (isCompileCommand cmd) then Runs cmd toolArgs [] else handleCompile env cmd o toolArgs
      end
  end.

(** ** tool_exec_main.go *)
(** tool_exec_main.go:155-171 *)
Definition isSystemPkg (pkg : bytes) : bool :=
  eqs pkg #"runtime" || has_prefix pkg #"runtime/" || (length (filter (fun c => eqc c slash) pkg) <=? 3).
(** tool_exec_main.go:182-190 *)
Fixpoint findFileStartIndex (rargs : list bytes) : nat :=
  match rargs with [] => 0 | a :: r => if has_prefix a #"-" then length rargs else findFileStartIndex r end.
(** tool_exec_main.go:57-101: the flags; the packages and what follows --; None: an error, or
    the help *)
Fixpoint insert_flags (args : list bytes) (pkgs : list bytes) {struct args} : option (list bytes * list bytes) :=
  match args with
  | [] => None
  | arg :: r =>
      if eqs arg #"--" then Some (pkgs, r)
      else if eqs arg #"--pkg" then match r with [] | [] :: _ => None | p :: r' => insert_flags r' (pkgs ++ [p]) end
      else if has_prefix arg #"--pkg=" then match skipn 6 arg with [] => None | p => insert_flags r (pkgs ++ [p]) end
      else if eqs arg #"--func" then None
      else if has_prefix arg #"--func=" then None
      else if eqs arg #"-v" || eqs arg #"--verbose" then insert_flags r pkgs
      else None
  end.
Section Insert.
  (** the directory for changed files, and where the file of a path goes in it
      (tool_exec_main.go:203, 229, 253-254: tmp, joined with the absolute path) *)
  Variable place : bytes -> bytes.
  (** inject.InjectRuntimeTrap: None is an error, false that the file has no function *)
  Variable inject : bytes -> option bool.
  (** tool_exec_main.go:213-268: one file *)
  Definition replace_file (file : bytes) : option bytes :=
    if negb (has_suffix file #".go") || has_suffix file #"_test.go" then Some file
    else match inject file with None => None | Some true => Some (place file) | Some false => Some file end.
  Fixpoint replaceWithTmpFiles (files : list bytes) : option (list bytes) :=
    match files with
    | [] => Some []
    | f :: r => match replace_file f, replaceWithTmpFiles r with Some f', Some r' => Some (f' :: r') | _, _ => None end
    end.
  (** tool_exec_main.go:48-153 *)
  Definition handleInsertTrap (args : list bytes) : outcome :=
    match insert_flags args [] with
    | None => Fails
    | Some (pkgs, remainArgs) =>
        match remainArgs with
        | [] => Fails
        | cmd :: cmdArgs =>
            if negb (isCompileCommand cmd) then Runs cmd cmdArgs []
            else if hasFlag cmdArgs #"-V" then Runs cmd cmdArgs []
            else let pkg := findArgAfterFlag args #"-p" in
            if eqs pkg [] then Fails
            else if isSystemPkg pkg then Runs cmd cmdArgs []
            else if negb (length pkgs =? 0) && negb (existsb (fun p => eqs p pkg) pkgs) then Runs cmd cmdArgs []
            else let fileIndex := findFileStartIndex (rev cmdArgs) in
                 match replaceWithTmpFiles (skipn fileIndex cmdArgs) with
                 | None => Fails
                 | Some replaced => Runs cmd (firstn fileIndex cmdArgs ++ replaced) []
                 end
        end
    end.
End Insert.

(** ** The files of concurrent invocations (tool_exec_main.go:202-268). A directory is the
    list of its components; a file is its directory and its name. *)
Definition dir := list bytes.
Definition file := (dir * bytes)%type.
(** RemoveAll and MkdirAll of a directory, writing a file, and the compiler that reads the
    files written *)
Inductive act := Clear (d : dir) | Put (f : file) | Compile.
Fixpoint below (d e : dir) : bool := match d, e with [], _ => true | x :: d', y :: e' => eqs x y && below d' e' | _, [] => false end.
Definition exec (a : act) (fs : list file) : list file :=
  match a with Clear d => filter (fun f => negb (below d (fst f))) fs | Put f => f :: fs | Compile => fs end.
Definition dir_eqb (d e : dir) : bool := below d e && below e d.
(** what one invocation does for the files it changes; [dirs] are the directories it has
    cleared *)
Fixpoint acts (dirs : list dir) (files : list file) : list act :=
  match files with
  | [] => [Compile]
  | f :: r => if existsb (fun d => dir_eqb d (fst f)) dirs then Put f :: acts dirs r
              else Clear (fst f) :: Put f :: acts (fst f :: dirs) r
  end.
