(** * Source instrumentation: instrument/instrument_func/trap.go, instrument/instrument_var,
    instrument/instrument_reg, instrument/compiler_extra, instrument/config and the loops of
    cmd/xgo/instrument.go.  Positions are byte offsets in the source; the syntax tree is given
    as records holding what the code reads from it.  Edits are calls on a buffer (M_Edit). *)
From Coq Require Import Ascii String List Arith ZArith Bool Lia.
From Verif Require Import M_Str M_Edit M_Coverage.
Import ListNotations.
Open Scope nat_scope.

(** fmt %d / strconv.Itoa of a non-negative number. *)
Definition itoa (n : nat) : bytes := format_int (Z.of_nat n).
(** strconv.Quote / %q.  Simplification: the quote, the backslash and the line break are
    escaped, all other bytes are kept (the real function also escapes control characters and
    bytes that are not UTF-8, with no line break in the result either). *)
Definition quote (s : bytes) : bytes :=
  [ascii_of_nat 34] ++
  flat_map (fun c => if eqc c (ascii_of_nat 34) || eqc c (ascii_of_nat 92) then [ascii_of_nat 92; c]
                     else if eqc c (ascii_of_nat 10) then [ascii_of_nat 92; "n"%char] else [c]) s ++
  [ascii_of_nat 34].

(** ** Which packages: support/goinfo/pkg.go:3-22, instrument/config/config.go:58-129 *)
Definition within (pkg module : bytes) : option bytes :=
  if has_prefix pkg module then
    match skipn (length module) pkg with
    | [] => Some []
    | c :: r => if eqc c "/"%char then Some r else None
    end
  else None.
Definition runtime_module : bytes := #"github.com/xhd2015/xgo/runtime".
(** config.go:109-118. *)
Definition is_xgo_runtime (pkg : bytes) : bool :=
  match within pkg runtime_module with
  | None => false
  | Some suffix => match within suffix #"test" with Some _ => false | None => true end
  end.
(** config.go:40-51. *)
Definition never_instrument : list bytes :=
  [#"unsafe"; #"runtime"; #"syscall"; #"reflect"; #"sync"; #"sync/atomic"; #"testing"].
(** config.go:58-81: isXgo, allow. *)
Definition check_instrument (pkg : bytes) : bool * bool :=
  match within pkg #"runtime", within pkg #"internal", within pkg #"vendor" with
  | None, None, None =>
      if is_xgo_runtime pkg then (true, false)
      else if existsb (eqs pkg) never_instrument then (false, false)
      else (false, true)
  | _, _, _ => (false, false)
  end.
(** config.go:83-107. *)
Inductive mode := Exported | All | NoMode.
Definition check_mode (stdlib main initial trap_all : bool) : mode :=
  if main || initial then All else if stdlib then NoMode else if trap_all then Exported else NoMode.
(** cmd/xgo/instrument.go:517-532. *)
Definition in_any (pkg real_main : bytes) (extras : list bytes) : bool :=
  (match real_main with [] => false | _ => match within pkg real_main with Some _ => true | None => false end end) ||
  existsb (fun m => match m with [] => false | _ => if eqs m real_main then false else match within pkg m with Some _ => true | None => false end end) extras.

(** ** Functions: instrument_func/trap.go *)
(** What is read from go/ast. *)
Record ident := { i_text : bytes; i_start : nat; i_end : nat }.
Record field := { f_names : list ident; f_type : nat }.
(** Receiver types, instrument/ast/recv.go:41-69. *)
Inductive rexpr := RIdent (n : bytes) | RStar (x : rexpr) | RIndex (x : rexpr) | RSel (pkg n : bytes) | ROther.
Record fdecl := {
  d_name : bytes;
  d_body : option (nat * nat);      (* offset of '{' and the line after it; None: no body *)
  d_nosplit : bool;                 (* trap.go:89-97: a doc comment starts with //go:nosplit *)
  d_recv : list (field * rexpr);
  d_params : list field; d_params_close : nat;
  d_results : list field; d_results_paren : bool;   (* Results.Opening != NoPos *)
  d_line : nat; d_generic : bool }.                 (* line of the declaration; has type parameters *)

(** recv.go:41-69; None: panic. *)
Definition parse_receiver (x : rexpr) : option (bool * bool * bytes) :=
  let '(ptr, x) := match x with RStar y => (true, y) | _ => (false, x) end in
  let '(generic, x) := match x with RIndex y => (true, y) | _ => (false, x) end in
  match x with
  | RSel _ n => Some (ptr, generic, n)
  | RIdent n => Some (ptr, generic, n)
  | _ => None
  end.
(** recv.go:8-17 and trap.go:233-239: identity name, and of the receiver: pointer, generic,
    type name; None: panic (trap.go:272-275 more than one receiver). *)
Definition identity (d : fdecl) : option (bytes * option (bool * bool * bytes)) :=
  match d_recv d with
  | [] => Some (d_name d, None)
  | [(_, x)] =>
      match parse_receiver x with
      | None => None
      | Some (ptr, gen, t) => Some ((if ptr then #"(*" ++ t ++ #")." else t ++ #".") ++ d_name d, Some (ptr, gen, t))
      end
  | _ => None
  end.
Definition recv_type (r : option (bool * bool * bytes)) : option bytes := option_map snd r.

Definition blank (n : bytes) : bool := match n with [] => true | _ => eqs n #"_" end.
(** trap.go:320-347, one field with names. *)
Fixpoint name_fields (prefix : bytes) (seq : nat) (ns : list ident) : list op * list bytes :=
  match ns with
  | [] => ([], [])
  | n :: r =>
      let '(ops, names) := name_fields prefix (S seq) r in
      if blank (i_text n) then
        let new := prefix ++ itoa seq in
        (OReplace (i_start n) (Some (i_end n)) new :: ops, new :: names)
      else (ops, i_text n :: names)
  end.
(** trap.go:303-385 processFieldNames.  [paren]: the positions of the parentheses put around a
    single result type written without them. *)
Fixpoint process_fields (prefix : bytes) (paren : option (nat * nat)) (seq : nat) (fs : list field) : list op * list bytes :=
  match fs with
  | [] => ([], [])
  | f :: r =>
      match f_names f with
      | [] =>
          let new := prefix ++ itoa seq in
          let '(ops, names) := process_fields prefix paren (S seq) r in
          (match paren with Some (o, c) => [OInsert o #" ("; OInsert c #")"] | None => [] end
           ++ OInsert (f_type f) (new ++ #" ") :: ops, new :: names)
      | ns =>
          let '(ops1, names1) := name_fields prefix seq ns in
          let '(ops2, names2) := process_fields prefix paren (seq + length ns) r in
          (ops1 ++ ops2, names1 ++ names2)
      end
  end.
Definition result_paren (d : fdecl) : option (nat * nat) :=
  match d_results d with
  | [f] => match f_names f with
           | [] => if d_results_paren d then None
                   else match d_body d with Some (lb, _) => Some (d_params_close d + 1, lb) | None => None end
           | _ => None
           end
  | _ => None
  end.
Definition recv_prefix : bytes := #"__xgo_auto_rcv_".
Definition param_prefix : bytes := #"__xgo_auto_param_".
Definition result_prefix : bytes := #"__xgo_auto_res_".
(** func_template.go:4 filled in (trap.go:210-218). *)
Definition trap_code (line file_index : nat) (info recv : bytes) (params results : list bytes) : bytes :=
  let l := itoa line in
  #"__xgo_post_" ++ l ++ #", __xgo_stop_" ++ l ++ #" := __xgo_trap_" ++ itoa file_index ++ #"(" ++ info ++ #"," ++ recv ++
  #",[]interface{}{" ++ join #"," params ++ #"},[]interface{}{" ++ join #"," results ++ #"});if __xgo_post_" ++ l ++
  #"!=nil { defer __xgo_post_" ++ l ++ #"(); };if __xgo_stop_" ++ l ++ #" { return; };".
Definition info_var (kind : bytes) (file_index i : nat) : bytes := kind ++ #"_" ++ itoa file_index ++ #"_" ++ itoa i.
(** trap.go:250-255 (an empty receiver list gives nil). *)
Definition addr (n : bytes) : bytes := "&"%char :: n.
Definition recv_addr (ns : list bytes) : bytes := match ns with [] => #"nil" | n :: _ => match n with [] => #"nil" | _ => addr n end end.

(** What is known about a function that is instrumented in place (trap.go:220-230). *)
Record finfo := {
  fi_var : bytes; fi_identity : bytes; fi_name : bytes; fi_line : nat; fi_generic : bool;
  fi_rtype : option (bool * bool * bytes); fi_recv : list bytes; fi_params : list bytes; fi_results : list bytes }.
(** trap.go:188-230: the edits of one function; None: panic (more than one receiver name). *)
Definition trap_one (file_index i : nat) (d : fdecl) (lb line : nat) (id : bytes) (t : option (bool * bool * bytes)) : option (list op * finfo) :=
  let '(ops1, recv) := process_fields recv_prefix None 0 (map fst (d_recv d)) in
  if 1 <? length recv then None
  else
    let '(ops2, params) := process_fields param_prefix None 0 (d_params d) in
    let '(ops3, results) := process_fields result_prefix (result_paren d) 0 (d_results d) in
    let info := info_var #"__xgo_func_info" file_index i in
    Some (ops1 ++ ops2 ++ ops3 ++ [OInsert (S lb) (trap_code line file_index info (recv_addr recv) (map addr params) (map addr results))],
          {| fi_var := info; fi_identity := id; fi_name := d_name d; fi_line := d_line d; fi_generic := d_generic d; fi_rtype := t; fi_recv := recv; fi_params := params; fi_results := results |}).

(** Options (trap.go:26-39).  [o_mock]: recorder has a mock of that function name;
    [o_mock_method]: of that method name of that type; [o_cfg]: white list of names and of
    prefixes. *)
Record opts := {
  o_main : bool; o_force : bool; o_mode : mode;
  o_mock : bytes -> bool; o_mock_method : bytes -> bytes -> bool;
  o_cfg : option (list bytes * list bytes) }.
Definition is_upper_first (n : bytes) : bool := match n with c :: _ => (65 <=? nat_of_ascii c) && (nat_of_ascii c <=? 90) | [] => false end.
(** trap.go:66-98: may be instrumented at all. *)
Definition eligible (pkg : bytes) (d : fdecl) : bool :=
  match d_body d with
  | None => false
  | Some _ =>
      negb (blank (d_name d)) &&
      negb (match d_recv d with [] => eqs (d_name d) #"init" | _ => false end) &&
      negb (eqs pkg #"time" && (eqs (d_name d) #"XgoRealNow" || eqs (d_name d) #"XgoRealSleep")) &&
      negb (d_nosplit d)
  end.
(** trap.go:106-122 hitRecorder. *)
Definition mocked (o : opts) (name : bytes) (rt : option bytes) : bool :=
  o_mock o name || match rt with Some t => o_mock_method o t name | None => false end.
(** trap.go:104-147; simplification: token.IsExported on ASCII names. *)
Definition selected (o : opts) (name id : bytes) (rt : option bytes) : bool :=
  match o_mode o with
  | All => true
  | m =>
      mocked o name rt ||
      match o_cfg o with
      | Some (names, prefixes) => existsb (eqs id) names || existsb (fun p => match p with [] => false | _ => has_prefix id p end) prefixes
      | None => match m with Exported => is_upper_first name | _ => false end
      end
  end.
Definition max_per_file : nat := 16.
Definition max_per_pkg : nat := 96.

Record out := { r_ops : list op; r_infos : list finfo; r_extras : list bytes; r_quota : option nat }.
(** trap.go:56-231 TrapFuncs; None: panic. *)
Fixpoint trap_funcs (pkg : bytes) (file_index : nat) (o : opts) (ds : list fdecl) (r : out) : option out :=
  match ds with
  | [] => Some r
  | d :: rest =>
      match d_body d with
      | Some (lb, line) =>
          if negb (eligible pkg d) then trap_funcs pkg file_index o rest r
          else
            match identity d with
            | None => None
            | Some (id, t) =>
                if negb (selected o (d_name d) id (recv_type t)) then trap_funcs pkg file_index o rest r
                else if negb (o_main o) && negb (o_force o) then
                  match o_mode o with
                  | All => trap_funcs pkg file_index o rest {| r_ops := r_ops r; r_infos := r_infos r; r_extras := r_extras r ++ [id]; r_quota := r_quota r |}
                  | _ =>
                      if length (r_extras r) <? max_per_file then
                        match r_quota r with
                        | Some 0 => trap_funcs pkg file_index o rest r
                        | q => trap_funcs pkg file_index o rest
                                 {| r_ops := r_ops r; r_infos := r_infos r; r_extras := r_extras r ++ [id]; r_quota := option_map pred q |}
                        end
                      else trap_funcs pkg file_index o rest r
                  end
                else
                  match trap_one file_index (length (r_infos r)) d lb line id t with
                  | None => None
                  | Some (ops, info) =>
                      trap_funcs pkg file_index o rest {| r_ops := r_ops r ++ ops; r_infos := r_infos r ++ [info]; r_extras := r_extras r; r_quota := r_quota r |}
                  end
            end
      | None => trap_funcs pkg file_index o rest r
      end
  end.
(** cmd/xgo/instrument.go:276-325 over the files of one package: per file, what is edited in
    place and what is left to the compiler; the quota is shared. *)
Fixpoint trap_files (pkg : bytes) (o : opts) (quota : option nat) (i : nat) (files : list (list fdecl)) : option (list out) :=
  match files with
  | [] => Some []
  | ds :: rest =>
      match trap_funcs pkg i o ds {| r_ops := []; r_infos := []; r_extras := []; r_quota := quota |} with
      | None => None
      | Some r => option_map (cons r) (trap_files pkg o (r_quota r) (S i) rest)
      end
  end.
(** The package starts with the full quota (cmd/xgo/instrument.go:276, config.go:18-19). *)
Definition trap_package (pkg : bytes) (o : opts) (files : list (list fdecl)) : option (list out) :=
  trap_files pkg o (Some max_per_pkg) 0 files.

(** ** Variables: instrument_var/trap_var.go *)
(** var_template.go:10-32. *)
Definition gen_code (file_index : nat) (prefix name info type : bytes) : bytes :=
  #"func " ++ prefix ++ name ++ #"_xgo_get() " ++ type ++ #" {__mock_res := " ++ name ++ #";__xgo_trap_var_" ++ itoa file_index ++ #"(" ++ info ++ #",&" ++ name ++
  #",&__mock_res);return __mock_res;};func " ++ prefix ++ name ++ #"_xgo_get_addr() *" ++ type ++ #" {__mock_res := &" ++ name ++ #";__xgo_trap_varptr_" ++ itoa file_index ++
  #"(" ++ info ++ #",&" ++ name ++ #",&__mock_res);return __mock_res;}".
(** instrument/edit/edit.go:48-60; [vr_addr]: the positions of & and of its operand. *)
Record var_ref := { vr_addr : option (nat * nat); vr_ptr : bool; vr_start : nat; vr_end : nat; vr_field : bool }.
(** trap_var.go:121-138 applyRewrite. *)
Definition rewrite_ref (prefix : bytes) (v : var_ref) : list op :=
  (match vr_addr v with Some (a, x) => if vr_field v then [] else [ODelete a (Some x)] | None => [] end) ++
  (match prefix with [] => [] | _ => [OInsert (vr_start v) prefix] end) ++
  [OInsert (vr_end v) (if vr_ptr v then #"_xgo_get_addr()" else #"_xgo_get()")].
(** A package-level variable of the file that is to be rewritten: its name, line, the end of
    its declaration, the text of its type (empty: unknown, trap_var.go:91-93), the imports
    added for that type by name and path, and the references to it.  Simplification: the
    references are in the file itself. *)
Record vdecl := { v_name : bytes; v_line : nat; v_end : nat; v_type : bytes; v_imports : list (bytes * bytes); v_refs : list var_ref }.
(** trap_var.go:59-119 rewriteVarDefAndRefs, patch/init.go:49-51; [test]: the file is a
    _test.go file. *)
Definition var_prefix (test : bool) (name : bytes) : bytes := if test && has_prefix name #"Test" then #"T_" else [].
Definition rewrite_var (test : bool) (file_index i pkg_end : nat) (v : vdecl) : list op :=
  let prefix := var_prefix test (v_name v) in
  map (fun p => OInsert pkg_end (#";import " ++ fst p ++ #" " ++ quote (snd p))) (v_imports v) ++
  [OInsert (v_end v) #";"; OInsert (v_end v) (gen_code file_index prefix (v_name v) (info_var #"__xgo_var_info" file_index i) (v_type v))] ++
  flat_map (rewrite_ref prefix) (v_refs v).
(** trap_var.go:40-54: the variables of one file; also what is registered for them. *)
Fixpoint rewrite_vars (test : bool) (file_index i pkg_end : nat) (vs : list vdecl) : list op * list (bytes * bytes * nat) :=
  match vs with
  | [] => ([], [])
  | v :: r =>
      match v_type v with
      | [] => rewrite_vars test file_index i pkg_end r
      | _ =>
          let '(ops, regs) := rewrite_vars test file_index (S i) pkg_end r in
          (rewrite_var test file_index i pkg_end v ++ ops, (info_var #"__xgo_var_info" file_index i, v_name v, v_line v) :: regs)
      end
  end.

(** ** Registration: instrument_reg/instrument_reg.go, compiler_extra/register.go *)
(** register.go:205-238 JoinStmts. *)
Definition needs_sep (last : bytes) : bool :=
  match rev last with [] => false | c :: _ => negb (eqc c ";"%char || eqc c (ascii_of_nat 10)) end.
Fixpoint join_stmts (last : bytes) (l : list bytes) : bytes :=
  match l with
  | [] => []
  | s :: r => match s with [] => join_stmts last r | _ => (if needs_sep last then #";" else []) ++ s ++ join_stmts s r end
  end.
Definition stmts (l : list bytes) : bytes := join_stmts [] l.
(** constants/info.go:7-100: names with the file index. *)
Definition per_file (n : bytes) (file_index : nat) : bytes := n ++ itoa file_index.
Definition bool_text (b : bool) : bytes := if b then #"true" else #"false".
Definition fields_text : bytes := #"Kind int;FullName string;Pkg string;IdentityName string;Name string;RecvType string;RecvPtr bool;Interface bool;Generic bool;Closure bool;Stdlib bool;File string;Line int;PC uintptr;Func interface{};Var interface{};RecvName string;ArgNames []string;ResNames []string;FirstArgCtx bool;LastResultErr bool".
(** register.go:150-168 makeLiteral. *)
Definition make_literal (file_index : nat) (file_var : bytes) (kind : nat) (name id : bytes) (line : nat) (stdlib : bool) (extra : list bytes) : bytes :=
  #"&" ++ per_file #"__xgo_func_info_" file_index ++ #"{Kind:" ++ itoa kind ++ #",Pkg:" ++ per_file #"__xgo_pkg_" file_index ++ #",Name:" ++ quote name ++
  #",IdentityName:" ++ quote id ++ #",File:" ++ file_var ++ #",Line:" ++ itoa line ++
  (match extra with [] => [] | _ => #"," ++ join #"," extra end) ++ (if stdlib then #",Stdlib:true" else []) ++ #"}".
(** register.go:135-148 defineLiteral: definition, registration, delayed initialisation. *)
Definition define_literal (file_index : nat) (var literal : bytes) (delay : option bytes) : bytes * bytes * bytes :=
  (#"var " ++ var ++ #"=" ++ literal, per_file #"__xgo_register_" file_index ++ #"(" ++ var ++ #")",
   match delay with Some v => var ++ #".Func=" ++ v | None => [] end).
Definition quoted_names (ns : list bytes) : bytes := join #"," (map quote ns).
(** register.go:75-109 DefineFuncLiteral. *)
Definition func_extra (f : finfo) : list bytes :=
  (match fi_recv f with
   | [] => []
   | n :: _ =>
       [#"RecvPtr:" ++ bool_text (match fi_rtype f with Some (p, _, _) => p | None => false end);
        #"RecvType: " ++ quote (match fi_rtype f with Some (_, _, t) => t | None => [] end);
        #"RecvName:" ++ quote n]
   end) ++
  (if match fi_rtype f with Some (_, g, _) => g | None => false end || fi_generic f then [#"Generic:true"] else []) ++
  (match fi_params f with [] => [] | ns => [#"ArgNames:[]string{" ++ quoted_names ns ++ #"}"] end) ++
  (match fi_results f with [] => [] | ns => [#"ResNames:[]string{" ++ quoted_names ns ++ #"}"] end).
Definition func_literal (file_index : nat) (stdlib : bool) (f : finfo) : bytes * bytes * bytes :=
  define_literal file_index (fi_var f)
    (make_literal file_index (per_file #"__xgo_file_" file_index) 0 (fi_name f) (fi_identity f) (fi_line f) stdlib (func_extra f))
    (if match fi_rtype f with Some (_, g, _) => g | None => false end || fi_generic f then None else Some (fi_identity f)).
(** register.go:111-133: variables and interface types, given as info variable, name, line. *)
Definition var_literal (file_index : nat) (stdlib : bool) (v : bytes * bytes * nat) : bytes * bytes * bytes :=
  let '(var, name, line) := v in
  define_literal file_index var
    (make_literal file_index (per_file #"__xgo_file_var_" file_index) 1 name name line stdlib [#"Var:&" ++ name; #"ResNames:[]string{" ++ quote name ++ #"}"]) None.
Definition intf_literal (file_index : nat) (stdlib : bool) (v : bytes * bytes * nat) : bytes * bytes * bytes :=
  let '(var, name, line) := v in
  define_literal file_index var
    (make_literal file_index (per_file #"__xgo_file_" file_index) 0 name name line stdlib [#"Interface:true"; #"RecvType: " ++ quote name]) None.
(** register.go:29-58 GetFileRegStmts. *)
Definition literals (file_index : nat) (stdlib : bool) (vars : list (bytes * bytes * nat)) (funcs : list finfo) (intfs : list (bytes * bytes * nat)) :
  list (bytes * bytes * bytes) :=
  map (var_literal file_index stdlib) vars ++ map (func_literal file_index stdlib) funcs ++ map (intf_literal file_index stdlib) intfs.
(** register.go:60-73 GenerateRegCode. *)
Definition reg_stmts (file_index : nat) (ls : list (bytes * bytes * bytes)) : bytes :=
  let regs := stmts (map (fun l => snd (fst l)) ls) in
  let delay := stmts (map snd ls) in
  stmts [stmts (map (fun l => fst (fst l)) ls);
         (match delay with [] => [] | _ => #"func init(){" ++ delay ++ #";}" end);
         #"func init(){" ++ stmts [per_file #"__xgo_init_" file_index ++ #"()"; regs] ++ #";}"].
(** register.go:182-201 and instrument_reg.go:37-41. *)
Definition reg_code (file_index : nat) (pkg file : bytes) (ls : list (bytes * bytes * bytes)) : bytes :=
  let v n value := #"var " ++ per_file n file_index ++ value in
  stmts [stmts [#"type " ++ per_file #"__xgo_func_info_" file_index ++ #" struct{" ++ fields_text ++ #"}";
                v #"__xgo_register_" #" = func(v interface{}){}";
                v #"__xgo_trap_" #" = func(info interface{}, recvPtr interface{}, args []interface{}, results []interface{}) (func(), bool){return nil, false;}";
                v #"__xgo_trap_var_" #" = func(info interface{}, varAddr interface{}, res interface{}){}";
                v #"__xgo_trap_varptr_" #" = func(info interface{}, varAddr interface{}, res interface{}){}";
                v #"__xgo_pkg_" (#"=" ++ quote pkg)];
         v #"__xgo_file_" (#"=" ++ quote file); v #"__xgo_file_var_" (#"=" ++ quote file); reg_stmts file_index ls].
(** instrument_reg.go:13-48: the code that registers what was instrumented goes after the
    last import or the package name, the init function at the end of the file. *)
Definition register (pos file_end file_index : nat) (stdlib : bool) (pkg file : bytes)
    (vars : list (bytes * bytes * nat)) (funcs : list finfo) (intfs : list (bytes * bytes * nat)) : list op :=
  let ls := literals file_index stdlib vars funcs intfs in
  let f n := per_file n file_index in
  match ls with
  | [] => []
  | _ =>
    [OInsert pos (#";" ++ reg_code file_index pkg file ls);
     OInsert file_end ([ascii_of_nat 10] ++ #"//go:noinline" ++ [ascii_of_nat 10] ++ #"func " ++ f #"__xgo_init_" ++ #"(){" ++
       f #"__xgo_register_" ++ #"=" ++ f #"__xgo_register_" ++ #";" ++ f #"__xgo_trap_" ++ #"=" ++ f #"__xgo_trap_" ++ #";" ++
       f #"__xgo_trap_var_" ++ #"=" ++ f #"__xgo_trap_var_" ++ #";" ++ f #"__xgo_trap_varptr_" ++ #"=" ++ f #"__xgo_trap_varptr_" ++ #";}")]
  end.

(** instrument_intf.go:13-50: info variables of interface types, given by name and line. *)
Fixpoint intf_infos (file_index i : nat) (l : list (bytes * nat)) : list (bytes * bytes * nat) :=
  match l with [] => [] | (n, line) :: r => (info_var #"__xgo_intf_info" file_index i, n, line) :: intf_infos file_index (S i) r end.
(** cmd/xgo/instrument.go:247-345 for one file of a main package: first the variables, then
    the functions, then the registration. *)
Record gofile := {
  g_pkg : bytes; g_path : bytes; g_index : nat; g_test : bool; g_stdlib : bool;
  g_pkg_end : nat;              (* end of the package name *)
  g_insert : nat;               (* patch/init.go:15-41 GetFuncInsertPosition *)
  g_end : nat;                  (* end of the last declaration *)
  g_vars : list vdecl; g_funcs : list fdecl; g_intfs : list (bytes * nat) }.
Definition file_ops (o : opts) (g : gofile) : option (list op) :=
  let '(ops1, vars) := rewrite_vars (g_test g) (g_index g) 0 (g_pkg_end g) (g_vars g) in
  match trap_funcs (g_pkg g) (g_index g) o (g_funcs g) {| r_ops := []; r_infos := []; r_extras := []; r_quota := None |} with
  | None => None
  | Some r =>
      Some (ops1 ++ r_ops r ++
            register (g_insert g) (g_end g) (g_index g) (g_stdlib g) (g_pkg g) (g_path g) vars (r_infos r)
              (match o_mode o with NoMode => [] | _ => if o_main o then intf_infos (g_index g) 0 (g_intfs g) else [] end))
  end.

(** ** The cache sum: cmd/xgo/instrument.go:358-377, the text that is hashed. *)
Record extra_file := { x_name : bytes; x_funcs : list bytes; x_intfs : list bytes }.
Definition sum_text (files : list extra_file) (has_var : bool) : bytes :=
  flat_map (fun f => x_name f ++ concat (x_funcs f) ++ concat (x_intfs f)) files ++ (if has_var then #"v:1" else #"v:0").

(** ** Notes for the coverage tool: instrument_go/go_tool_cover.go:83-113 and
    xgo_cover_template.go.  [q], [uq]: strconv.Quote and Unquote ("" on error);
    [j], [uj]: encoding/json of the edits (none on error). *)
Section Notes.
Variable q : bytes -> bytes.
Variable uq : bytes -> bytes.
Variable j : list edit -> bytes.
Variable uj : bytes -> list edit.
Definition nlc : ascii := ascii_of_nat 10.
(** go_tool_cover.go:86-112. *)
Definition add_notes (edits : list edit) (file original content : bytes) : bytes :=
  content ++ (if has_suffix content [nlc] then [] else [nlc]) ++
  #"// __xgo_file: " ++ q file ++ [nlc] ++ #"// __xgo_edits: " ++ j edits ++ [nlc] ++ #"// __xgo_original: " ++ q original.
(** template:86-117 xgoFindLinesFromEnd, on the reversed content: [cur] is the line being
    read, already in order. *)
Fixpoint lines_rev (rc cur : bytes) (max : nat) : list bytes :=
  match max with
  | 0 => []
  | S m =>
      match rc with
      | [] => []
      | c :: r => if eqc c nlc then cur :: lines_rev r [] m else lines_rev r (c :: cur) (S m)
      end
  end.
Definition lines_from_end (content : bytes) (max : nat) : list bytes :=
  match rev content with
  | [] => []
  | c :: r => rev (lines_rev (if eqc c nlc then r else c :: r) [] max)
  end.
(** template:121-138; bytes.TrimSpace is [trim_space] (M_Coverage uses the same notion of
    space for ASCII text); None: no prefix. *)
Definition is_space (c : ascii) : bool := let n := nat_of_ascii c in (n =? 32) || ((9 <=? n) && (n <=? 13)).
Fixpoint drop_space (s : bytes) : bytes := match s with c :: r => if is_space c then drop_space r else s | [] => [] end.
Definition trim (s : bytes) : bytes := rev (drop_space (rev (drop_space s))).
Definition cut_prefix (line : bytes) : option (bytes * bytes) :=
  if has_prefix line #"// __xgo_" then
    match cut_first ":"%char (skipn 9 line) with
    | None => None
    | Some (a, b) => Some (#"// __xgo_" ++ a ++ #":", trim b)
    end
  else None.
(** template:37-84 xgoParseEdit. *)
Fixpoint collect (ls : list bytes) (f e o : bytes) : option (bytes * bytes * bytes) :=
  match ls with
  | [] => Some (f, e, o)
  | l :: r =>
      match cut_prefix l with
      | None => None
      | Some (p, c) =>
          if eqs p #"// __xgo_file:" then collect r c e o
          else if eqs p #"// __xgo_edits:" then collect r f c o
          else if eqs p #"// __xgo_original:" then collect r f e c
          else None
      end
  end.
Definition parse_notes (content : bytes) : option (bytes * list edit * bytes) :=
  let ls := lines_from_end content 3 in
  if length ls <? 3 then None
  else
    match collect ls [] [] [] with
    | Some (f, e, o) =>
        match f, e, o with
        | [], _, _ | _, [], _ | _, _, [] => None
        | _, _, _ =>
            match uq f, uj e, uq o with
            | [], _, _ | _, [], _ | _, _, [] => None
            | f', e', o' => Some (f', e', o')
            end
        end
    | None => None
    end.
End Notes.
