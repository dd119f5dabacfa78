(** * test.config.json and the commands of the test explorer (support/testconfig/config.go,
    cmd/xgo/test-explorer/{config,run,run_session,poll,debug}.go) *)
From Coq Require Import Ascii String List Arith Bool ZArith Lia.
From Verif Require Import M_Str M_Version M_Coverage.
Import ListNotations.
Open Scope nat_scope.
Open Scope list_scope.

(** What encoding/json makes of a text. Reading the text itself is not modelled. Of the
    numbers only integers are; a float64 holds those below 2^53 exactly. *)
Inductive json := JNull | JBool (b : bool) | JInt (z : Z) | JStr (s : bytes) | JArr (l : list json) | JObj (l : list (bytes * json)).
(** json.Unmarshal into a map: of a repeated key the last value is kept. *)
Fixpoint member (k : bytes) (l : list (bytes * json)) : option json :=
  match l with
  | [] => None
  | (k', v) :: r => match member k r with Some w => Some w | None => if eqs k' k then Some v else None end
  end.
(** config.go:116 and the like: ok && e != nil *)
Definition set_value (k : bytes) (m : list (bytes * json)) : option json :=
  match member k m with Some JNull | None => None | Some v => Some v end.

Record goconf := { gc_min : bytes; gc_max : bytes }.
Record covconf := { cc_disabled : bool; cc_diffWith : bytes; cc_profile : bytes; cc_include : list bytes; cc_exclude : list bytes }.
Definition no_cov : covconf := {| cc_disabled := false; cc_diffWith := []; cc_profile := []; cc_include := []; cc_exclude := [] |}.
(** config.go:21-39 *)
Record config := { c_go : option goconf; c_goCmd : bytes; c_exclude : list bytes; c_env : list (bytes * json); c_flags : list bytes; c_args : list bytes;
  c_bypass : bool; c_mockRules : list json; c_xgo : option bool; c_coverage : option covconf }.
Definition no_config : config := {| c_go := None; c_goCmd := []; c_exclude := []; c_env := []; c_flags := []; c_args := []; c_bypass := false; c_mockRules := []; c_xgo := None; c_coverage := None |}.

(** results: None is an error *)
Definition bind {A B} (x : option A) (f : A -> option B) : option B := match x with Some a => f a | None => None end.
Fixpoint map_opt {A B} (f : A -> option B) (l : list A) : option (list B) :=
  match l with [] => Some [] | a :: r => bind (f a) (fun b => bind (map_opt f r) (fun bs => Some (b :: bs))) end.
(** elements of []string; config.go:309-317 *)
Definition as_str (v : json) : option bytes := match v with JStr s => Some s | _ => None end.
(** config.go:290-319 *)
Definition toStringList (v : json) : option (list bytes) :=
  match v with
  | JNull => Some []
  | JArr l => map_opt as_str l
  | JStr [] => Some []
  | JStr s => Some [s]
  | _ => None
  end.
(** config.go:321-339 *)
Definition toBoolean (v : json) : option bool :=
  match v with
  | JNull => Some false
  | JBool b => Some b
  | JStr s => if eqs s #"true" then Some true else if eqs s #"false" then Some true else None
  | _ => None
  end.
(** config.go:341-364; a marshaled value is the value *)
Definition toMarshaledStrings (v : json) : option (list json) :=
  match v with
  | JNull => Some []
  | JArr l => bind (map_opt (fun x => match x with JStr _ => None | JNull => Some [] | _ => Some [x] end) l) (fun ls => Some (concat ls))
  | _ => None
  end.
(** Fields of a struct, as json.Unmarshal fills them. Keys that differ from the field's in
    case only are taken for it by encoding/json; not modelled. *)
Definition field_str (k : bytes) (m : list (bytes * json)) : option bytes := match set_value k m with None => Some [] | Some (JStr s) => Some s | Some _ => None end.
Definition field_bool (k : bytes) (m : list (bytes * json)) : option bool := match set_value k m with None => Some false | Some (JBool b) => Some b | Some _ => None end.
Definition field_strs (k : bytes) (m : list (bytes * json)) : option (list bytes) :=
  match set_value k m with
  | None => Some []
  | Some (JArr l) => map_opt (fun v => match v with JStr s => Some s | JNull => Some [] | _ => None end) l
  | Some _ => None
  end.
(** config.go:124-139 *)
Definition parse_go (v : json) : option goconf :=
  match v with
  | JStr s => Some {| gc_min := s; gc_max := [] |}
  | JObj m => bind (field_str #"min" m) (fun a => bind (field_str #"max" m) (fun b => Some {| gc_min := a; gc_max := b |}))
  | _ => None
  end.
(** config.go:150-165 *)
Definition parse_exclude (v : json) : option (list bytes) :=
  match v with
  | JStr [] => Some []
  | JStr s => Some [s]
  | JArr l => toStringList v
  | _ => None
  end.
(** config.go:200-204 *)
Definition parse_xgo (v : json) : option bool := match v with JObj m => field_bool #"auto_update" m | _ => None end.
(** config.go:206-216 *)
Definition parse_coverage (v : json) : option (option covconf) :=
  match v with
  | JBool true => Some None
  | JBool false => Some (Some {| cc_disabled := true; cc_diffWith := []; cc_profile := []; cc_include := []; cc_exclude := [] |})
  | JObj m =>
      bind (field_bool #"disabled" m) (fun d => bind (field_str #"diff_with" m) (fun w => bind (field_str #"profile" m) (fun p =>
      bind (field_strs #"include" m) (fun i => bind (field_strs #"exclude" m) (fun e =>
      Some (Some {| cc_disabled := d; cc_diffWith := w; cc_profile := p; cc_include := i; cc_exclude := e |}))))))
  | _ => None
  end.
(** a key that is not set gives [d] *)
Definition key {A} (k : bytes) (m : list (bytes * json)) (d : A) (f : json -> option A) : option A :=
  match set_value k m with None => Some d | Some v => f v end.
(** config.go:102-219 on the value of a text that is not empty *)
Definition Parse (top : json) : option config :=
  match top with
  | JNull => Some no_config
  | JObj m =>
      bind (key #"env" m [] (fun v => match v with JObj l => Some l | _ => None end)) (fun env =>
      bind (key #"go" m None (fun v => bind (parse_go v) (fun g => Some (Some g)))) (fun go =>
      bind (key #"go_cmd" m [] as_str) (fun goCmd =>
      bind (key #"exclude" m [] parse_exclude) (fun exclude =>
      bind (key #"flags" m [] toStringList) (fun flags =>
      bind (key #"args" m [] toStringList) (fun args =>
      bind (key #"bypass_go_flags" m false toBoolean) (fun bypass =>
      bind (key #"mock_rules" m [] toMarshaledStrings) (fun rules =>
      bind (key #"xgo" m None (fun v => bind (parse_xgo v) (fun x => Some (Some x)))) (fun xgo =>
      bind (key #"coverage" m None parse_coverage) (fun coverage =>
      Some {| c_go := go; c_goCmd := goCmd; c_exclude := exclude; c_env := env; c_flags := flags; c_args := args; c_bypass := bypass; c_mockRules := rules; c_xgo := xgo; c_coverage := coverage |}))))))))))
  | _ => None
  end.

(** ** The environment: fmt.Sprint of a value (strconv %g: from 7 digits on the exponent
    is written). Values that are arrays or objects are not modelled: None. *)
Fixpoint drop_zeros (s : bytes) : bytes := match s with c :: r => if eqc c "0"%char then drop_zeros r else s | [] => [] end.
Definition two_digits (n : nat) : bytes := if n <? 10 then "0"%char :: format_int (Z.of_nat n) else format_int (Z.of_nat n).
Definition sprint_int (z : Z) : bytes :=
  let d := format_int (Z.abs z) in
  (if (z <? 0)%Z then #"-" else []) ++
  (if length d <=? 6 then d
   else match rev (drop_zeros (rev d)) with
        | c :: r => c :: (match r with [] => [] | _ => "."%char :: r end) ++ #"e+" ++ two_digits (length d - 1)
        | [] => d
        end).
Definition sprint (v : json) : option bytes :=
  match v with
  | JStr s => Some s
  | JBool true => Some #"true"
  | JBool false => Some #"false"
  | JInt z => Some (sprint_int z)
  | JNull => Some #"<nil>"
  | JArr _ | JObj _ => None
  end.
(** config.go:61-71: the pair of a variable *)
Definition EnvPair (c : config) (k : bytes) : option bytes :=
  match member k (c_env c) with
  | None => None
  | Some v => bind (sprint v) (fun s => Some (k ++ #"=" ++ s))
  end.
(** config.go:79-84 *)
Definition GetGoCmd (c : config) : bytes := match c_goCmd c with [] => #"go" | s => s end.

(** ** test-explorer/config.go:34-91. [marshal] writes a mock rule, [mockable] is what
    getXgoSupportsMockRule answers. *)
Record options := { o_default : bytes; o_goCommand : bytes; o_exclude : list bytes; o_flags : list bytes; o_args : list bytes; o_coverage : bytes; o_profile : bytes; o_diffWith : bytes }.
(** None: there is no file, and none was asked for. *)
Definition merge (marshal : json -> bytes) (mockable : bool) (file : option config) (o : options) : config :=
  let conf := match file with Some c => c | None => no_config end in
  let goCmd := match o_goCommand o with [] => match c_goCmd conf with [] => o_default o | s => s end | s => s end in
  let flags := c_flags conf ++ o_flags o in
  let flags := if eqs goCmd #"xgo" && negb (length (c_mockRules conf) =? 0) && mockable then flags ++ flat_map (fun r => [#"--mock-rule"; marshal r]) (c_mockRules conf) else flags in
  let cov := match c_coverage conf with Some c => c | None => no_cov end in
  let coverage :=
    if eqs (o_coverage o) #"false" then {| cc_disabled := true; cc_diffWith := cc_diffWith cov; cc_profile := cc_profile cov; cc_include := cc_include cov; cc_exclude := cc_exclude cov |}
    else {| cc_disabled := cc_disabled cov;
            cc_diffWith := match o_diffWith o with [] => cc_diffWith cov | s => s end;
            cc_profile := match o_profile o with [] => cc_profile cov | s => s end; cc_include := cc_include cov; cc_exclude := cc_exclude cov |} in
  {| c_go := c_go conf; c_goCmd := goCmd; c_exclude := c_exclude conf ++ o_exclude o; c_env := c_env conf; c_flags := flags; c_args := c_args conf ++ o_args o;
     c_bypass := c_bypass conf; c_mockRules := c_mockRules conf; c_xgo := c_xgo conf; c_coverage := Some coverage |}.

(** ** Commands: the program and its words *)
(** run_session.go:558-583 *)
Definition runTest (goCmd : bytes) (customFlags testArgs : list bytes) (bypass : bool) (progArgs : list bytes) : bytes * list bytes :=
  (match goCmd with [] => #"go" | s => s end,
   [#"test"; #"-v"] ++ customFlags ++ testArgs ++ match progArgs with [] => [] | _ => #"-args" :: (if bypass then [#"--"] else []) ++ progArgs end).
(** run_session.go:77-99, 333-360: a run in a session; [many] if the item is not a single
    test, [traceDir] empty if no trace is asked for. *)
Definition session_flags (c : config) (coverageFlags : list bytes) (many debug : bool) (traceDir : bytes) : list bytes :=
  (if many && negb debug then [#"-json"] else []) ++ (c_flags c ++ coverageFlags) ++ match traceDir with [] => [] | d => [#"--strace"; #"--strace-dir"; d] end.
Definition session_run (c : config) (coverageFlags : list bytes) (many : bool) (traceDir : bytes) (testArgs : list bytes) : bytes * list bytes :=
  runTest (c_goCmd c) (session_flags c coverageFlags many false traceDir) testArgs (c_bypass c) (c_args c).
(** run.go:282-314 with the RunContext of poll.go:130-145: what POST /run does. [testFlags]
    and [testArgs] are those in the comment of the test. *)
Definition poll_run (c : config) (name dir : bytes) (testFlags testArgs : list bytes) : bytes * list bytes :=
  (GetGoCmd c, [#"test"; #"-run"; #"^" ++ name ++ #"$"; #"-v"] ++ (c_flags c ++ testFlags) ++ [#"./" ++ dir] ++ match testArgs with [] => [] | _ => #"-args" :: testArgs end).
(** debug.go:40-104 with the same RunContext: what POST /debug builds, and what it gives the
    test binary. *)
Definition debug_build (c : config) (tmpBin dir : bytes) (testFlags : list bytes) : bytes * list bytes :=
  (GetGoCmd c, [#"test"; #"-c"; #"-o"; tmpBin; #"-gcflags=all=-N -l"] ++ (c_flags c ++ testFlags) ++ [#"./" ++ dir]).
Definition debug_args (name : bytes) (bypass : bool) (testArgs : list bytes) : list bytes :=
  [#"-test.v"; #"-test.run"; #"^" ++ name ++ #"$"] ++ (if bypass then [#"--"] else []) ++ testArgs.
Definition poll_debug_args (c : config) (name : bytes) (testArgs : list bytes) : list bytes := debug_args name false testArgs.
(** the same in a session *)
Definition session_debug_args (c : config) (name : bytes) : list bytes := debug_args name (c_bypass c) (c_args c).
(** main.go:378-394: whether coverage is collected, and compared with what *)
Definition coverage_on (c : config) : bool := match c_coverage c with None => true | Some v => negb (cc_disabled v) end.
Definition coverage_base (c : config) : bytes := match c_coverage c with Some v => match cc_diffWith v with [] => #"origin/master" | s => s end | None => #"origin/master" end.
