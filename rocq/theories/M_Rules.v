(** * Model of mock rules: which are in force, what they select, what they make xgo load
    (cmd/xgo/rule.go, cmd/xgo/instrument.go:432-515, cmd/xgo/main.go:449-450, 770-802,
    patch/legacy/match/match.go).

    JSON is not modelled: reading a rule is a function passed as argument, and writing the
    merged options and reading them back (rule.go:98, main.go:774) is the identity. *)
From Coq Require Import Ascii String List Arith Bool Lia.
From Verif Require Import M_Str M_Options.
Import ListNotations.
Open Scope nat_scope.

(** strings.TrimSpace, ASCII white space. *)
Fixpoint trim_left (s : bytes) : bytes :=
  match s with [] => [] | c :: r => if is_space c then trim_left r else s end.
Definition trim_space (s : bytes) : bytes := rev (trim_left (rev (trim_left s))).

(** rule.go:15-26 Rule. *)
Record rule := {
  r_any : bool; r_kind : option bytes; r_pkg : option bytes; r_name : option bytes; r_stdlib : option bool;
  r_main : option bool; r_generic : option bool; r_exported : option bool; r_closure : option bool; r_action : bytes
}.
(** rule.go:30-35 FileOptions. *)
Record file_options := { o_rules : list rule; o_include : list bytes }.

(** rule.go:38-55 parseModuleList. *)
Fixpoint module_list_from (parts : list bytes) (seen : list bytes) : list bytes :=
  match parts with
  | [] => []
  | p :: r =>
      let p := trim_space p in
      if negb (non_empty p) || existsb (eqs p) seen then module_list_from r seen
      else p :: module_list_from r (p :: seen)
  end.
Definition parse_module_list (s : bytes) : list bytes :=
  if non_empty s then module_list_from (split ","%char s) [] else [].

(** The loop over the rules of the command line, rule.go:80-90. *)
Fixpoint parse_rules (parse : bytes -> option rule) (l : list bytes) : option (list rule) :=
  match l with
  | [] => Some []
  | s :: r =>
      if negb (non_empty s) then parse_rules parse r
      else match parse s with
           | None => None
           | Some x => match parse_rules parse r with None => None | Some xs => Some (x :: xs) end
           end
  end.
(** rule.go:57-104 mergeOptionFiles and its reading in main.go:773-777.  [file]: None when no
    file is given, Some None when it cannot be read. *)
Definition merge_options (parse : bytes -> option rule) (file : option (option file_options)) (cli : list bytes) (inc : list bytes) : option file_options :=
  let from_file := match file with None => Some {| o_rules := []; o_include := [] |} | Some f => f end in
  if (length cli =? 0) && (length inc =? 0) then from_file
  else match from_file with
       | None => None
       | Some f =>
           match parse_rules parse cli with
           | None => None
           | Some rs => Some {| o_rules := rs ++ o_rules f; o_include := if 0 <? length inc then inc else o_include f |}
           end
       end.
(** main.go:449-450 with option.go:626: the flag, or else the environment variable. *)
Definition effective_options (parse : bytes -> option rule) (file : option (option file_options)) (cli : list bytes) (flag env : bytes) : option file_options :=
  merge_options parse file cli (parse_module_list (first_non_empty [flag; env])).
(** main.go:799-802. *)
Definition include_as_main (flag env : bytes) (o : file_options) : list bytes :=
  let l := parse_module_list (first_non_empty [flag; env]) in
  if length l =? 0 then o_include o else l.

(** instrument.go:500-515 splitCommaList. *)
Definition split_comma_list (s : bytes) : list bytes :=
  if non_empty s then filter non_empty (map trim_space (split ","%char s)) else [].
Definition opt_list (s : option bytes) : list bytes := match s with None => [] | Some s => split_comma_list s end.

(** instrument.go:465-491: one package of a rule; None: an error. *)
Definition load_pkg (pkg : bytes) : option bytes :=
  let n := length pkg in
  match index pkg #"*" with
  | None => Some pkg
  | Some i =>
      if S i =? n then None
      else if i <? n - 2 then None
      else if negb (match nth_error pkg (n - 1) with Some c => eqc c "*"%char | None => false end) then None
      else if (n <? 3) || negb (match nth_error pkg (n - 3) with Some c => eqc c "/"%char | None => false end) then None
      else Some (firstn (n - 2) pkg ++ #"...")
  end.
Fixpoint load_pkgs (l : list bytes) : option (list bytes) :=
  match l with
  | [] => Some []
  | p :: r => match load_pkg p with None => None | Some q => match load_pkgs r with None => None | Some qs => Some (q :: qs) end end
  end.
(** instrument.go:432-498 getLoadPackages. *)
Fixpoint load_from (rules : list rule) (ex_func ex_var : bool) (pkgs : list bytes) : option (bool * list bytes) :=
  match rules with
  | [] => Some (negb (ex_func && ex_var), pkgs)
  | r :: more =>
      match r_main r with
      | Some true =>
          let kinds := opt_list (r_kind r) in
          if eqs (r_action r) #"exclude" then
            if length kinds =? 0 then load_from more true true pkgs
            else load_from more (ex_func || existsb (eqs #"func") kinds) (ex_var || existsb (eqs #"var") kinds) pkgs
          else load_from more ex_func ex_var pkgs
      | _ =>
          if negb (eqs (r_action r) #"include") then load_from more ex_func ex_var pkgs
          else match load_pkgs (opt_list (r_pkg r)) with
               | None => None
               | Some qs => load_from more ex_func ex_var (pkgs ++ qs)
               end
      end
  end.
Definition get_load_packages (rules : list rule) : option (bool * list bytes) := load_from rules false false [].

(** A declaration as Match sees it (info.DeclInfo), with its package. *)
Record decl := {
  d_kind : bytes; d_is_func : bool; d_identity : bytes; d_exported : bool; d_generic : bool; d_closure : bool;
  d_pkg : bytes; d_std : bool; d_main : bool
}.
(** match.go:59-116 Match, after Parse (26-30); the package and name patterns are those of
    M_Pattern, passed as [pat]. *)
Definition match_rule (pat : bytes -> bytes -> bool) (r : rule) (d : decl) : bool :=
  if r_any r then true
  else
    let kinds := opt_list (r_kind r) in
    let pkgs := opt_list (r_pkg r) in
    let names := opt_list (r_name r) in
    let flag (o : option bool) (b : bool) := match o with None => true | Some x => Bool.eqb x b end in
    let given {A} (o : option A) := match o with None => false | Some _ => true end in
    if (0 <? length kinds) && negb (existsb (eqs (d_kind d)) kinds) then false
    else if (0 <? length pkgs) && negb (existsb (fun p => pat p (d_pkg d)) pkgs) then false
    else if (0 <? length names) && negb (existsb (fun p => pat p (d_identity d)) names) then false
    else if negb (flag (r_main r) (d_main d)) then false
    else if negb (flag (r_stdlib r) (d_std d)) then false
    else if d_is_func d && negb (flag (r_generic r) (d_generic d)) then false
    else if negb (flag (r_exported r) (d_exported d)) then false
    else if negb (flag (r_closure r) (d_closure d)) then false
    else (0 <? length kinds) || (0 <? length pkgs) || (0 <? length names) || given (r_main r) || given (r_stdlib r) ||
         (given (r_generic r) && d_is_func d) || given (r_exported r) || given (r_closure r).
(** match.go:50-57 MatchRules. *)
Fixpoint match_rules (pat : bytes -> bytes -> bool) (rules : list rule) (d : decl) : bytes :=
  match rules with
  | [] => []
  | r :: more => if match_rule pat r d then r_action r else match_rules pat more d
  end.
