(** * Model of the command line of xgo
    (cmd/xgo/option.go, support/flag/flag.go, cmd/xgo/main.go:129-1000).

    Release build: isDevelopment (env_release.go:5) and V1_0_0 (main.go:45) are false, so the
    flags they guard (--debug-compile, --debug-with-dlv, --xgo-home, --build-compiler) are
    ordinary unknown flags.  Instead of one variable per option, a parse records the
    assignments to them in order; reading an option takes the last assignment, or all of them
    for the options that append. *)
From Coq Require Import Ascii String List Arith Bool Lia.
From Verif Require Import M_Str.
Import ListNotations.
Open Scope nat_scope.

Inductive cmd := Build | Run | Test | Exec | Setup.
Definition cmd_eqb (a b : cmd) : bool :=
  match a, b with Build, Build | Run, Run | Test, Test | Exec, Exec | Setup, Setup => true | _, _ => false end.
Definition cmd_name (c : cmd) : bytes :=
  match c with Build => #"build" | Run => #"run" | Test => #"test" | Exec => #"exec" | Setup => #"setup" end.

(** The fields of options (option.go:12-135) that flags assign. *)
Inductive field :=
| FA | FX | FC | FV | FLogCompile | FSyncXgoOnly | FSetupDev | FSyncWithLink | FNoBuildOutput | FNoInstrument
| FResetInstrument | FNoSetup | FNoLineDirective | FUseFilePatches | FDebug | FStraceDir | FStrace | FStraceSnapshot
| FTrapStdlib | FTrapAll
| FProjectDir | FOutput | FDebugTarget | FVscode | FXgoSrc | FWithGoroot | FOptionsFile | FMockRule | FIncludeAsMain
| FDumpIR | FDumpAST | FRun | FMod | FGcflags | FOverlay | FModfile | FTags | FLogDebug | FBuildFlag | FProgFlag
| FTrap | FGo | FRaceSafe | FDelete | FInPlace | FSkipRebuild | FUnified.
Scheme Equality for field.

(** What looking at one argument gives: an assignment (with or without consuming the next
    argument as the value), an error, a panic, or not this flag. *)
Inductive outcome := Assign (f : field) (v : bytes) (next : bool) | Error | Panic | NotThis.
Definition orelse (a b : outcome) : outcome := match a with NotThis => b | _ => a end.
Infix "<|>" := orelse (at level 60, right associativity).

(** flag.go:60-71 tryParseArg: None: not this flag; Some None: the value is the next
    argument; Some (Some v): the value. *)
Definition try_parse_arg (flag arg : bytes) : option (option bytes) :=
  if negb (has_prefix arg flag) then None
  else if length arg =? length flag then Some None
  else match nth_error arg (length flag) with
       | Some c => if eqc c "="%char then Some (Some (skipn (S (length flag)) arg)) else None
       | None => None
       end.
(** flag.go:8-27 TryParseFlagValue. *)
Definition try_parse_flag_value (flag : bytes) (f : field) (arg : bytes) (rest : list bytes) : outcome :=
  match try_parse_arg flag arg with
  | None => NotThis
  | Some (Some v) => Assign f v false
  | Some None => match rest with [] => Error | v :: _ => Assign f v true end
  end.
(** flag.go:29-39 TryParseFlagsValue. *)
Fixpoint try_parse_flags_value (flags : list bytes) (f : field) (arg : bytes) (rest : list bytes) : outcome :=
  match flags with
  | [] => NotThis
  | flag :: more => try_parse_flag_value flag f arg rest <|> try_parse_flags_value more f arg rest
  end.
(** flag.go:42-58 TrySingleFlag: the value, if one of the flags matches. *)
Fixpoint try_single_flag (flags : list bytes) (arg : bytes) : option bytes :=
  match flags with
  | [] => None
  | f :: more =>
      if negb (has_prefix arg f) then try_single_flag more arg
      else if length arg =? length f then Some []
      else match nth_error arg (length f) with
           | Some c => if eqc c "="%char then Some (skipn (S (length f)) arg) else try_single_flag more arg
           | None => try_single_flag more arg
           end
  end.
(** option.go:705-727 tryParseValue with optional = false (tryParseRequiredValue, 685-695). *)
Definition try_required (flag : bytes) (f : field) (arg : bytes) (rest : list bytes) : outcome :=
  if negb (has_prefix arg flag) then NotThis
  else match skipn (length flag) arg with
       | [] => match rest with [] => Error | v :: _ => Assign f v true end
       | c :: v => if eqc c "="%char then Assign f v false else NotThis
       end.
(** option.go:729-741 tryParseEqSuffixValue. *)
Definition try_eq_suffix (flag arg : bytes) : option bytes :=
  if negb (has_prefix arg flag) then None
  else match skipn (length flag) arg with
       | [] => Some []
       | c :: v => if eqc c "="%char then Some v else None
       end.

Definition is_true (v : bytes) : bool := eqs v #"" || eqs v #"true".
Definition truth (b : bool) : bytes := if b then #"true" else #"false".

(** option.go:743-767 parseStackTraceFlag. *)
Definition parse_strace (arg : bytes) : outcome :=
  let go prefix :=
    if length arg =? length prefix then Assign FStrace #"on" false
    else match nth_error arg (length prefix) with
         | Some c =>
             if negb (eqc c "="%char) then NotThis
             else let v := skipn (S (length prefix)) arg in
                  if eqs v #"" || eqs v #"on" || eqs v #"true" then Assign FStrace #"on" false
                  else if eqs v #"off" || eqs v #"false" then Assign FStrace #"off" false
                  else Panic
         | None => NotThis
         end in
  if has_prefix arg #"--strace" then go #"--strace"
  else if has_prefix arg #"--stack-trace" then go #"--stack-trace"
  else NotThis.

(** option.go:408-469: the exact switches, in order. *)
Definition switches : list (list bytes * field) :=
  [ ([#"-a"; #"--a"], FA); ([#"-x"; #"--x"], FX); ([#"-c"; #"--c"], FC); ([#"-v"; #"--v"], FV);
    ([#"--log-compile"], FLogCompile); ([#"--sync-xgo-only"], FSyncXgoOnly); ([#"--setup-dev"], FSetupDev);
    ([#"--sync-with-link"], FSyncWithLink); ([#"--no-build-output"], FNoBuildOutput); ([#"--no-instrument"], FNoInstrument);
    ([#"--reset-instrument"], FResetInstrument); ([#"--no-setup"], FNoSetup); ([#"--no-line-directive"], FNoLineDirective);
    ([#"--use-file-patches"], FUseFilePatches) ].
Fixpoint try_switches (l : list (list bytes * field)) (arg : bytes) : outcome :=
  match l with
  | [] => NotThis
  | (names, f) :: more => if existsb (eqs arg) names then Assign f #"true" false else try_switches more arg
  end.
(** option.go:470-482. *)
Definition try_use_file_patches (arg : bytes) : outcome :=
  if has_prefix arg #"--use-file-patches=" then
    let v := skipn (length #"--use-file-patches=") arg in
    if eqs v #"true" || eqs v #"" then Assign FUseFilePatches #"true" false
    else if eqs v #"false" then Assign FUseFilePatches #"false" false
    else Error
  else NotThis.
Definition of_single (o : option bytes) (k : bytes -> outcome) : outcome := match o with Some v => k v | None => NotThis end.

(** option.go:208-383: one entry of flagValues: the flags, and how the value is stored
    (Single: TrySingleFlag and Set; otherwise TryParseFlagsValue and an assignment). *)
Inductive how := Value (f : field) | Single (k : bytes -> outcome).
Definition flag_values (c : cmd) : list (list bytes * how) :=
  [ ([#"--project-dir"], Value FProjectDir); ([#"-o"; #"--o"], Value FOutput); ([#"--debug-target"], Value FDebugTarget);
    ([#"--vscode"], Value FVscode); ([#"--xgo-src"], Value FXgoSrc); ([#"--with-goroot"], Value FWithGoroot);
    ([#"--options-from-file"], Value FOptionsFile); ([#"--mock-rule"], Value FMockRule);
    ([#"--mock-rule-include-as-main-module"], Value FIncludeAsMain); ([#"--dump-ir"], Value FDumpIR); ([#"--dump-ast"], Value FDumpAST);
    ([#"-run"; #"--run"], Value FRun); ([#"-mod"; #"--mod"], Value FMod); ([#"-gcflags"; #"--gcflags"], Value FGcflags);
    ([#"-overlay"; #"--overlay"], Value FOverlay); ([#"-modfile"; #"--modfile"], Value FModfile); ([#"-tags"; #"--tags"], Value FTags);
    ([#"--log-debug"], Single (fun v => Assign FLogDebug v false)); ([#"--build-flag"], Value FBuildFlag); ([#"--prog-flag"], Value FProgFlag);
    ([#"--trap"], Value FTrap); ([#"--go"], Single (fun _ => Assign FGo #"true" false));
    ([#"--xgo-race-safe"], Single (fun v => Assign FRaceSafe (truth (is_true v)) false)) ] ++
  (if cmd_eqb c Setup then
     [ ([#"--delete"], Single (fun _ => Assign FDelete #"true" false));
       ([#"--patch-goroot-in-place"], Single (fun _ => Assign FInPlace #"true" false));
       ([#"--skip-rebuild-compiler-and-go"], Single (fun _ => Assign FSkipRebuild #"true" false)) ] else []) ++
  (if cmd_eqb c Test then
     [ ([#"--unified"], Single (fun v => if is_true v then Assign FUnified #"true" false
                                         else if eqs v #"false" then Assign FUnified #"false" false else Panic)) ] else []).
(** option.go:549-570. *)
Fixpoint try_flag_values (l : list (list bytes * how)) (arg : bytes) (rest : list bytes) : outcome :=
  match l with
  | [] => NotThis
  | (flags, Single k) :: more => of_single (try_single_flag flags arg) k <|> try_flag_values more arg rest
  | (flags, Value f) :: more => try_parse_flags_value flags f arg rest <|> try_flag_values more arg rest
  end.

(** option.go:408-573: what an argument starting with "-" is. *)
Definition classify (c : cmd) (arg : bytes) (rest : list bytes) : outcome :=
  try_switches switches arg <|>
  try_use_file_patches arg <|>
  of_single (try_eq_suffix #"--debug" arg) (fun v => Assign FDebug v false) <|>
  try_required #"--strace-dir" FStraceDir arg rest <|>
  try_required #"--stack-trace-dir" FStraceDir arg rest <|>
  parse_strace arg <|>
  of_single (try_single_flag [#"--strace-snapshot-main-module-default"] arg) (fun v => Assign FStraceSnapshot v false) <|>
  of_single (try_single_flag [#"--trap-stdlib"] arg) (fun v => Assign FTrapStdlib (truth (is_true v)) false) <|>
  of_single (try_single_flag [#"--trap-all"] arg) (fun v => Assign FTrapAll (truth (is_true v)) false) <|>
  try_flag_values (flag_values c) arg rest.

Record parsed := { p_set : list (field * bytes); p_remain : list bytes; p_test : list bytes }.
Inductive result := Parsed (p : parsed) | Failed | Panicked.
Definition set (p : parsed) (f : field) (v : bytes) : parsed := {| p_set := p_set p ++ [(f, v)]; p_remain := p_remain p; p_test := p_test p |}.
Definition forward (p : parsed) (l : list bytes) : parsed := {| p_set := p_set p; p_remain := p_remain p ++ l; p_test := p_test p |}.
Definition to_test (p : parsed) (l : list bytes) : parsed := {| p_set := p_set p; p_remain := p_remain p; p_test := p_test p ++ l |}.

(** option.go:385-594, the loop of parseOptions. *)
Fixpoint parse_from (c : cmd) (args : list bytes) (p : parsed) : result :=
  match args with
  | [] => Parsed p
  | arg :: rest =>
      if negb (has_prefix arg #"-") then
        if cmd_eqb c Run || cmd_eqb c Exec then Parsed (forward p args) else parse_from c rest (forward p [arg])
      else if cmd_eqb c Test && (eqs arg #"-args" || eqs arg #"--args") then Parsed (to_test p rest)
      else if eqs arg #"--" then Parsed (forward p rest)
      else if eqs arg #"-" then Failed
      else match classify c arg rest with
           | Assign f v next =>
               if next then match rest with [] => Failed | _ :: rest' => parse_from c rest' (set p f v) end
               else parse_from c rest (set p f v)
           | Error => Failed
           | Panic => Panicked
           | NotThis =>
               if containsc "="%char arg then parse_from c rest (forward p [arg])
               else match rest with
                    | n :: rest' =>
                        if negb (has_prefix n #"-") then parse_from c rest' (forward p [arg; n])
                        else parse_from c rest (forward p [arg])
                    | [] => parse_from c rest (forward p [arg])
                    end
           end
  end.
(** option.go:137, 369: trapStdlib starts true for test. *)
Definition parse_options (c : cmd) (args : list bytes) : result :=
  parse_from c args {| p_set := if cmd_eqb c Test then [(FTrapStdlib, #"true")] else []; p_remain := []; p_test := [] |}.

(** Reading options: the last assignment, all assignments, whether a switch is on. *)
Definition all_of (f : field) (p : parsed) : list bytes := map snd (filter (fun s => field_beq (fst s) f) (p_set p)).
Definition last_of (f : field) (p : parsed) : option bytes := match rev (all_of f p) with [] => None | v :: _ => Some v end.
Definition value_of (f : field) (p : parsed) : bytes := match last_of f p with Some v => v | None => [] end.
Definition on (f : field) (p : parsed) : bool := eqs (value_of f p) #"true".
Definition non_empty (v : bytes) : bool := match v with [] => false | _ => true end.

(** option.go:665-672 firstNonEmpty: white space is Unicode's, here the ASCII part. *)
Definition is_space (c : ascii) : bool :=
  existsb (eqc c) [" "; "009"; "010"; "011"; "012"; "013"]%char.
Fixpoint first_non_empty (l : list bytes) : bytes :=
  match l with [] => [] | v :: r => if existsb (fun c => negb (is_space c)) v then v else first_non_empty r end.

(** main.go:129-152 parseXgoFlags, isFlagSpace. *)
Definition is_flag_space (c : ascii) : bool := existsb (eqc c) [" "; "009"; "013"; "010"]%char.
Fixpoint xgo_flags_from (s : bytes) (cur : bytes) : list bytes :=
  match s with
  | [] => match cur with [] => [] | _ => [cur] end
  | c :: r =>
      if is_flag_space c then match cur with [] => xgo_flags_from r [] | _ => cur :: xgo_flags_from r [] end
      else xgo_flags_from r (cur ++ [c])
  end.
Definition parse_xgo_flags (s : bytes) : list bytes := xgo_flags_from s [].
(** main.go:158-164. *)
Definition actual_args (c : cmd) (xgo_flags : bytes) (args : list bytes) : list bytes :=
  if cmd_eqb c Exec then args else parse_xgo_flags xgo_flags ++ args.
(** main.go:782-790: looked for in the arguments of the command, not in XGO_FLAGS. *)
Definition may_have_cover (args : list bytes) : bool := existsb (fun a => has_prefix a #"-cover") args.

(** main.go:630-651: debug modes. *)
Definition debugging (p : parsed) : bool := match last_of FDebug p with Some v => negb (eqs v #"false") | None => false end.
Definition run_debug (c : cmd) (p : parsed) : bool := debugging p && cmd_eqb c Run.
Definition test_debug (c : cmd) (p : parsed) : bool := debugging p && cmd_eqb c Test && negb (on FC p).
Definition build_debug (c : cmd) (p : parsed) : bool := debugging p && (cmd_eqb c Build || (cmd_eqb c Test && on FC p)).

(** What the rest of handleBuild supplies: whether xgo itself changed, the overlay file (the
    generated one, or the caller's made absolute, or empty), -mod and -modfile after they may
    have been replaced, the linker flags, the session directory, and making a path absolute. *)
Record setting := {
  e_changed : bool; e_overlay : bytes; e_mod : bytes; e_modfile : bytes; e_linker : list bytes; e_session : bytes;
  e_abs : bytes -> bytes
}.
(** main.go:927-949: the path given to -o. *)
Definition final_output (c : cmd) (e : setting) (p : parsed) : bytes :=
  let debug_mode := run_debug c p || test_debug c p || build_debug c p in
  if cmd_eqb c Build || (cmd_eqb c Test && on FC p) || debug_mode then
    if negb debug_mode && on FNoBuildOutput p then []
    else if non_empty (value_of FOutput p) then
      (if non_empty (value_of FProjectDir p) then e_abs e (value_of FOutput p) else value_of FOutput p)
    else if debug_mode then e_session e ++ #"/debug.bin" else []
  else [].
Definition opt (b : bool) (l : list bytes) : list bytes := if b then l else [].
(** main.go:860-974: the arguments of the go command and the ones kept for the program.
    toolExecFlag is empty and compilerChanged false (V1_0_0). *)
Definition go_command (c : cmd) (e : setting) (p : parsed) : list bytes * list bytes :=
  let rd := run_debug c p in
  let td := test_debug c p in
  let debug_mode := rd || td || build_debug c p in
  let head := if rd then [#"build"] else [cmd_name c] in
  let a := opt (on FA p || e_changed e) [#"-a"] in
  let v := opt (on FV p && negb td) [#"-v"] in
  let x := opt (on FX p) [#"-x"] in
  let cc := opt (on FC p && negb td) [#"-c"] in
  let r := opt (non_empty (value_of FRun p) && negb td) [#"-run"; value_of FRun p] in
  let ov := opt (non_empty (e_overlay e)) [#"-overlay"; e_overlay e] in
  let md := opt (non_empty (e_mod e)) [#"-mod=" ++ e_mod e] in
  let mf := opt (non_empty (e_modfile e)) [#"-modfile"; e_modfile e] in
  let tg := opt (non_empty (value_of FTags p)) [#"-tags"; value_of FTags p] in
  let gc := map (fun f => #"-gcflags=" ++ f) (all_of FGcflags p) in
  let has_build_debug := existsb (fun f => eqs f #"all=-N -l" || eqs f #"all=-l -N") (all_of FGcflags p) in
  let dbg := opt (debug_mode && negb has_build_debug) [#"-gcflags=all=-N -l"] ++ opt td [#"-c"] in
  let discard := opt ((cmd_eqb c Build || (cmd_eqb c Test && on FC p)) && negb debug_mode && on FNoBuildOutput p) [#"-o"; e_session e ++ #"/discard.out"] in
  let out := opt (non_empty (final_output c e p)) [#"-o"; final_output c e p] in
  let rem := if rd then firstn 1 (p_remain p) else p_remain p in
  let targs := opt (cmd_eqb c Test && negb (length (p_test p) =? 0) && negb td) (#"-args" :: p_test p) in
  (head ++ a ++ v ++ x ++ cc ++ r ++ ov ++ md ++ mf ++ tg ++ gc ++ dbg ++ discard ++ out ++ all_of FBuildFlag p ++ e_linker e ++ rem ++ targs,
   opt (on FV p && td) [#"-test.v"] ++ opt (non_empty (value_of FRun p) && td) [#"-test.run"; value_of FRun p] ++
   all_of FProgFlag p ++ (if rd then skipn 1 (p_remain p) else []) ++ opt (cmd_eqb c Test && td) (p_test p)).

(** option.go:769-792 resolveUseFilePatches: None: an error. *)
Definition resolve_use_file_patches (explicit : option bool) (version : option (nat * nat)) : option bool :=
  match explicit with
  | None => Some (match version with Some (maj, min) => (maj =? 1) && (25 <=? min) | None => false end)
  | Some true => match version with Some (maj, min) => if (maj =? 1) && (24 <=? min) then Some true else None | None => None end
  | Some false => match version with Some (maj, min) => if (maj =? 1) && (26 <? min) then None else Some false | None => Some false end
  end.

(** option.go:794-827 getPkgArgs: the packages among the forwarded arguments. *)
Definition zero_arg : list bytes :=
  [#"-a"; #"-n"; #"-race"; #"-masan"; #"-asan"; #"-cover"; #"-v"; #"-work"; #"-x"; #"-linkshared"; #"-buildvcs"; #"-args"; #"-c"; #"-json"].
Fixpoint get_pkg_args (args : list bytes) : list bytes :=
  match args with
  | [] => []
  | arg :: rest =>
      if negb (has_prefix arg #"-") then args
      else if eqs arg #"-args" then []
      else if containsc "="%char arg then get_pkg_args rest
      else let arg' := if has_prefix arg #"--" then skipn 1 arg else arg in
           if existsb (eqs arg') zero_arg then get_pkg_args rest
           else match rest with [] => [] | _ :: rest' => get_pkg_args rest' end
  end.
