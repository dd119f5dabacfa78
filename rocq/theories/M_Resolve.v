(** * Which function is mocked: the resolution of the first argument of mock.Patch and its like
    (instrument/resolve/resolve.go, record.go, scope.go, stmt.go, decl.go, types/type.go) *)
From Coq Require Import Ascii String List Arith Bool.
From Verif Require Import M_Str.
Import ListNotations.
Open Scope nat_scope.
Open Scope list_scope.

(** Expressions and types, as far as resolve.go:95-460 looks at them.  EOther: unary, binary and slice expressions
    and type assertions (unary other than & and ! and type assertions are Unknown in the code too, 188-246, 449-451; binary
    ones have a basic type nearly always). *)
Inductive expr :=
| EId (x : bytes)
| ESel (e : expr) (x : bytes)                    (* e.x *)
| EParen (e : expr)
| EStar (e : expr)                               (* *e *)
| EAddr (e : expr)                               (* &e *)
| ECall (f : expr) (args : list expr)
| EComp (t : expr)                               (* t{...} *)
| EIndex (e i : expr)                            (* e[i] *)
| EStruct (fs : list (list bytes * expr))        (* struct{ a, b t; embedded } *)
| EFunc (rs : list (list bytes * expr))          (* func(...) (r t): the results *)
| EFuncLit (rs : list (list bytes * expr))       (* func(...) (r t) {...} *)
| EArr (e : expr)                                (* []e and [n]e *)
| EMap (k v : expr)
| EIface
| EChan (e : expr)
| ELit                                           (* basic literal *)
| EOther.

(** A package-level declaration (instrument/edit/edit.go:24-43; traverse.go:14-124 CollectDecls): its kind, type,
    value, results (functions), methods with their results (types), whether it is an alias (type A = B; the code does
    not keep this, traverse.go:78-79), and the imports of its file, by local name. *)
Inductive dkind := KType | KVar | KFunc.
Record decl := { kind : dkind; alias : bool; typ : option expr; value : option expr;
                 results : list (list bytes * expr); methods : list (bytes * list (list bytes * expr)); imports : list (bytes * bytes) }.
(** All packages: import path and name. *)
Definition world := bytes -> bytes -> option decl.

(** scope.go:119-138: scopes.  A frame is one *Scope: its Defs, newest first, and its Names. *)
Record def := { d_split : bool; d_multi : bool; d_expr : expr }.
Record frame := { f_defs : list (bytes * def); f_names : list bytes }.
Record scope := { s_pkg : bytes; s_imports : list (bytes * bytes); s_frames : list frame }.
Fixpoint assoc {A} (l : list (bytes * A)) (x : bytes) : option A :=
  match l with [] => None | (y, a) :: r => if eqs x y then Some a else assoc r x end.
Definition memb (x : bytes) (l : list bytes) : bool := existsb (eqs x) l.
(** scope.go:195-206 Has. *)
Fixpoint has (fr : list frame) (x : bytes) : bool :=
  match fr with
  | [] => false
  | f :: r => memb x (f_names f) || match assoc (f_defs f) x with Some _ => true | None => false end || has r x
  end.
(** scope.go:208-217 GetDef. *)
Fixpoint get_def (fr : list frame) (x : bytes) : option def :=
  match fr with [] => None | f :: r => match assoc (f_defs f) x with Some d => Some d | None => get_def r x end end.
Definition parent (sc : scope) : scope := {| s_pkg := s_pkg sc; s_imports := s_imports sc; s_frames := tl (s_frames sc) |}.

(** types/type.go: the results of the resolution.  TLazy: a LazyType, with the scope it closes over; TRaw: RawPtr;
    TOther: maps, slices, arrays, channels, interfaces, tuples, Untyped. *)
Inductive ty :=
| TUnknown
| TBasic
| TImport (path : bytes)
| TNamed (pkg name : bytes) (t : ty)
| TPtr (t : ty)
| TInst (t : ty)
| TLazy (sc : scope) (e : expr)
| TSig (rs : list ty)
| TStruct (fs : list (bytes * ty))
| TRaw (t : ty)
| TOther.
Inductive obj :=
| OVar (pkg name : bytes) (t : ty)               (* PkgVariable *)
| OFunc (pkg name : bytes) (t : ty)              (* PkgFunc *)
| OMethod (pkg tname m : bytes)                  (* PkgTypeMethod *)
| OTuple
| OPointer (o : obj)
| OValue (t : ty)                                (* Value, Literal, UntypedLiteral *)
| OScope (o : obj)                               (* ScopeVariable *)
| ONil.
(** An Info that is Unknown, a Type, an Object or an OperationName.  A resolution that comes back to an expression
    in progress is given a types.Lazy (51-55), which every user of it turns into Unknown; here it runs out of fuel,
    which gives IUnknown. *)
Inductive info := IUnknown | ITy (t : ty) | IObj (o : obj) | IOp (name : bytes).
(** 60-78 resolveType. *)
Definition as_type (i : info) : ty := match i with ITy t => t | _ => TUnknown end.
Definition ity (t : ty) : info := match t with TUnknown => IUnknown | _ => ITy t end.
(** types/type.go:250-330 Type. *)
Fixpoint type_of (o : obj) : ty :=
  match o with
  | OVar _ _ t => t
  | OFunc _ _ t => t
  | OMethod _ _ _ => TSig []
  | OTuple => TOther
  | OPointer o => TPtr (type_of o)
  | OValue t => t
  | OScope o => type_of o
  | ONil => TOther
  end.
(** types/type.go:451-465 ResolveAlias. *)
Fixpoint resolve_alias (p n : bytes) (u : ty) : bytes * bytes :=
  match u with
  | TNamed p2 n2 u2 => resolve_alias p2 n2 u2
  | TInst (TNamed p2 n2 u2) => resolve_alias p2 n2 u2
  | _ => (p, n)
  end.
(** Underlying, with [force] for LazyType. *)
Fixpoint under (force : scope -> expr -> ty) (n : nat) (t : ty) : ty :=
  match n with
  | O => TUnknown
  | S n =>
      match t with
      | TNamed _ _ u => under force n u
      | TPtr u => match under force n u with TUnknown => TUnknown | u => TRaw u end
      | TInst u => under force n u
      | TLazy sc e => under force n (force sc e)
      | _ => t
      end
  end.
(** 464-484 validateBasicName. *)
Definition basic_names : list bytes :=
  map (fun s => #s) ["string"; "byte"; "int"; "int8"; "int16"; "int32"; "int64"; "uint"; "uint8"; "uint16"; "uint32"; "uint64";
                     "float32"; "float64"; "bool"; "complex64"; "complex128"]%string.
(** 171-174. *)
Definition op_names : list bytes :=
  map (fun s => #s) ["new"; "make"; "cap"; "len"; "copy"; "append"; "delete"; "close"; "complex"; "real"; "imag"; "panic"; "recover"]%string.
Definition predeclared (x : bytes) : info :=
  if eqs x #"nil" then IObj ONil
  else if memb x op_names then IOp x
  else if memb x basic_names then ITy TBasic
  else IUnknown.
(** 545-560 getEmbedFieldName. *)
Definition embed_name (t : expr) : bytes :=
  let t := match t with EStar u => u | _ => t end in
  match t with ESel _ x => x | EId x => x | _ => [] end.
(** 286-306: one entry for each field declaration: of several names the last one stays (296-301). *)
Definition field_of (sc : scope) (f : list bytes * expr) : bytes * ty :=
  (match fst f with [] => embed_name (snd f) | ns => last ns [] end, TLazy sc (snd f)).
Definition file_scope (pkg : bytes) (d : decl) : scope := {| s_pkg := pkg; s_imports := imports d; s_frames := [] |}.

(** 640-734 resolveFieldToObject. *)
Definition force_lazy (force : scope -> expr -> ty) (t : ty) : ty := match t with TLazy sc e => force sc e | _ => t end.
Definition field_obj (W : world) (force : scope -> expr -> ty) (n : nat) (t : ty) (x : bytes) : info :=
  let t := force_lazy force t in
  let r := match t with TPtr e => force_lazy force e | _ => t end in
  let r := match r with TInst u => u | _ => r end in
  match r with
  | TNamed p nm u =>
      let '(p', n') := resolve_alias p nm u in
      let method := match W p' n' with Some d => match assoc (methods d) x with Some _ => true | None => false end | None => false end in
      if method then IObj (OMethod p' n' x)
      else
        let v := under force n t in
        let v := match v with TRaw u => u | _ => v end in
        match v with
        | TStruct fs => match assoc fs x with Some ft => IObj (OValue ft) | None => IUnknown end
        | _ => IUnknown
        end
  | _ => IUnknown
  end.

(** 42-58 resolveInfo, 95-460 doResolveInfo, 562-586 resolveDef, 588-636 resolveSelectorSubInfo.  The cache ExprInfo is not
    modelled: each expression is resolved in the scope at hand (in the code, in the scope of its first use). *)
Fixpoint res (W : world) (n : nat) (sc : scope) (e : expr) : info :=
  match n with
  | O => IUnknown
  | S n =>
      let rt := fun e => as_type (res W n sc e) in
      let force := fun sc e => as_type (res W n sc e) in
      match e with
      | EId x =>                                                         (* 100-179 *)
          match get_def (s_frames sc) x with
          | Some d =>
              if d_multi d then IUnknown
              else match res W n (if d_split d then parent sc else sc) (d_expr d) with IObj o => IObj (OScope o) | _ => IUnknown end
          | None =>
              if has (s_frames sc) x then IUnknown
              else match W (s_pkg sc) x with
                   | Some d =>
                       match kind d with
                       | KType => match typ d with
                                  | Some t => match rt t with TUnknown => IUnknown | u => ITy (TNamed (s_pkg sc) x u) end
                                  | None => IUnknown
                                  end
                       | KVar => match typ d, value d with
                                 | Some t, _ => match rt t with TUnknown => IUnknown | u => IObj (OVar (s_pkg sc) x u) end
                                 | None, Some v => match res W n sc v with
                                                   | IObj o => match type_of o with TUnknown => IUnknown | u => IObj (OVar (s_pkg sc) x u) end
                                                   | _ => IUnknown
                                                   end
                                 | None, None => IUnknown
                                 end
                       | KFunc => IObj (OFunc (s_pkg sc) x (TSig (map (fun r => TLazy sc (snd r)) (results d))))
                       end
                   | None => match assoc (s_imports sc) x with Some path => ITy (TImport path) | None => predeclared x end
                   end
          end
      | ESel e x =>                                                      (* 588-636 *)
          match res W n sc e with
          | ITy (TImport path) => match W path x with Some d => res W n (file_scope path d) (EId x) | None => IUnknown end
          | IObj o => match type_of o with TUnknown => IUnknown | t => field_obj W force n t x end
          | ITy t => field_obj W force n t x
          | _ => IUnknown
          end
      | EParen e => res W n sc e
      | EStar e =>                                                       (* 184-197, 517-522 deref *)
          match res W n sc e with
          | ITy t => ITy (TPtr t)
          | IObj o => match type_of o with TPtr TUnknown => IUnknown | TPtr t => IObj (OValue t) | _ => IUnknown end
          | _ => IUnknown
          end
      | EAddr e => match res W n sc e with IObj o => IObj (OPointer o) | _ => IUnknown end
      | EComp (EIndex t i) =>                                            (* 247-277 *)
          match rt t, rt i with TUnknown, _ | _, TUnknown => IUnknown | u, _ => IObj (OValue (TInst u)) end
      | EComp t => match rt t with TUnknown => IUnknown | u => IObj (OValue u) end
      | EIndex e i =>                                                    (* 278-302 *)
          match res W n sc e with
          | ITy t => match rt i with TUnknown => IUnknown | _ => ITy (TInst t) end
          | IObj (OFunc p x t) => IObj (OFunc p x t)
          | IObj (OMethod p t m) => IObj (OMethod p t m)
          | _ => IUnknown
          end
      | EStruct fs => ITy (TStruct (map (field_of sc) fs))
      | EFunc rs => ITy (TSig (map (fun r => TLazy sc (snd r)) rs))
      | EFuncLit rs => IObj (OValue (TSig (map (fun r => TLazy sc (snd r)) rs)))
      | EArr e => match rt e with TUnknown => IUnknown | _ => ITy TOther end
      | EMap _ _ | EIface | EChan _ => ITy TOther
      | ELit => IObj (OValue TBasic)
      | ECall f args =>                                                  (* 380-447 *)
          match res W n sc f with
          | IOp op =>
              if eqs op #"new" then match args with [a] => match rt a with TUnknown => IUnknown | t => IObj (OPointer (OValue t)) end | _ => IUnknown end
              else if eqs op #"make" then match args with a :: _ => match rt a with TUnknown => IUnknown | t => IObj (OValue t) end | _ => IUnknown end
              else if eqs op #"append" then
                match args with
                | a :: _ => match res W n sc a with IObj o => match type_of o with TUnknown => IUnknown | t => IObj (OValue t) end | _ => IUnknown end
                | _ => IUnknown
                end
              else IUnknown
          | ITy t => IObj (OValue t)
          | IObj o => match under force n (type_of o) with TSig [t] => IObj (OValue t) | TSig _ => IObj OTuple | _ => IUnknown end
          | IUnknown => IUnknown
          end
      | EOther => IUnknown
      end
  end.

(** record.go:45-98 recordMockRef: what is recorded for mock.Patch(e, ...), mock.Mock and so on; [allow] is
    config.CheckInstrument. *)
Inductive target := TgFunc (pkg name : bytes) | TgMethod (pkg tname m : bytes) | TgVar (pkg name : bytes).
Definition nonempty (x : bytes) : bool := match x with [] => false | _ => true end.
Definition record (allow : bytes -> bool) (W : world) (n : nat) (sc : scope) (e : expr) : option target :=
  let guard := fun p x t => if nonempty p && nonempty x && allow p then Some t else None in
  match res W n sc e with
  | IObj (OMethod p t m) => guard p t (TgMethod p t m)
  | IObj (OFunc p x _) => guard p x (TgFunc p x)
  | IObj (OPointer (OVar p x _)) => guard p x (TgVar p x)
  | _ => None
  end.

(** The names a function has declared so far, as blocks, innermost first, each in order of declaration.  DVar: var,
    const, parameters, results, receiver, range variables. *)
Inductive ldecl :=
| DDefine (names : list bytes) (rhs : list expr)
| DVar (names : list bytes) (t : option expr) (values : list expr)
| DType (name : bytes) (t : expr).
Definition blank (x : bytes) : bool := match x with [] => true | _ => eqs x #"_" end.
Definition ids_of (l : list expr) : list bytes := flat_map (fun e => match e with EId x => if blank x then [] else [x] | _ => [] end) l.
Definition add_defs (defs : list (bytes * def)) (fr : list frame) : list frame :=
  match fr with f :: r => {| f_defs := rev defs ++ f_defs f; f_names := f_names f |} :: r | [] => [] end.
Definition add_names (ns : list bytes) (fr : list frame) : list frame :=
  match fr with f :: r => {| f_defs := f_defs f; f_names := ns ++ f_names f |} :: r | [] => [] end.
Fixpoint defs_one (names : list bytes) (rhs : list expr) (split : bool) : list (bytes * def) :=
  match names, rhs with
  | x :: ns, e :: es => (if blank x then [] else [(x, {| d_split := split; d_multi := false; d_expr := e |})]) ++ defs_one ns es split
  | _, _ => []
  end.
(** stmt.go:33-96, decl.go:5-34, block.go:24-31 and scope.go:167-193. *)
Definition declare (fr : list frame) (d : ldecl) : list frame :=
  match d with
  | DDefine names rhs =>
      let split := existsb (fun x => memb x (ids_of rhs)) (filter (fun x => negb (blank x)) names) in
      let defs := if length names =? length rhs then defs_one names rhs split
                  else map (fun x => (x, {| d_split := split; d_multi := true; d_expr := hd EOther rhs |})) (filter (fun x => negb (blank x)) names) in
      if split then {| f_defs := rev defs; f_names := [] |} :: fr else add_defs defs fr
  | DVar names _ _ => add_names names fr
  | DType x _ => add_names [x] fr
  end.
Definition empty_frame : frame := {| f_defs := []; f_names := [] |}.
Fixpoint frames_of (ctx : list (list ldecl)) : list frame :=
  match ctx with [] => [] | b :: r => fold_left declare b (empty_frame :: frames_of r) end.
(** The scope of a call in the function body [ctx] of a file of [pkg] with [imports]. *)
Definition call_scope (pkg : bytes) (imps : list (bytes * bytes)) (ctx : list (list ldecl)) : scope :=
  {| s_pkg := pkg; s_imports := imps; s_frames := frames_of ctx |}.

(** import.go:46-61.  Simplification: strconv.Atoi takes an optional sign and at most 18 digits (it takes all
    numbers below 2^63). *)
Definition digits (s : bytes) : bool :=
  match s with [] => false | _ => (length s <=? 18) && forallb (fun c => let k := nat_of_ascii c in (48 <=? k) && (k <=? 57)) s end.
Definition is_version (s : bytes) : bool :=
  match s with
  | c :: r => eqc c "v"%char && (digits r || match r with c :: r' => (eqc c "+"%char && digits r') || (eqc c "-"%char && forallb (fun c => eqc c "0"%char) r' && digits r') | [] => false end)
  | [] => false
  end.
(** import.go:12-44 getFileImports: the packages by local name; of two imports with the same name the later one.
    [specs]: the imports of the file with their names, if written; [loaded]: the names of the packages loaded so far. *)
Definition guess_name (path : bytes) : bytes :=
  match cut_last "/"%char path with
  | None => path
  | Some (dir, name) => if is_version name then match cut_last "/"%char dir with Some (_, n) => n | None => dir end else name
  end.
Definition local_name (loaded : bytes -> bytes) (spec : option bytes * bytes) : bytes :=
  match fst spec with
  | Some n => n
  | None => match loaded (snd spec) with [] => guess_name (snd spec) | n => n end
  end.
Definition file_imports (loaded : bytes -> bytes) (specs : list (option bytes * bytes)) : list (bytes * bytes) :=
  rev (flat_map (fun s => let n := local_name loaded s in if nonempty n && negb (eqs n #".") && negb (eqs n #"_") then [(n, snd s)] else []) specs).
