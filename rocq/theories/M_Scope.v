(** * Which identifiers are rewritten: instrument/resolve (scope.go, block.go, stmt.go,
    expr.go, decl.go, collect_var_ref.go).
    Syntax is kept as far as scoping matters: names, and identifiers with their positions.
    Simplification: expression forms whose parts are all traversed in order (binary, unary,
    call, paren, star, index, slice, selector base, type assertion, composite literal, go,
    defer, return, send) are one constructor; types are skipped.  Variables of other packages
    (pkg.Var) and the detection of mock.Patch calls are not modelled here. *)
From Coq Require Import List Arith Bool String.
From Verif Require Import M_Str.
Import ListNotations.

Inductive expr :=
| Id (p : nat) (x : bytes)                    (* x, and &x *)
| AddrField (p : nat) (x : bytes) (ok : bool) (* &x.f; ok: x has a known pointer type and field *)
| Sub (es : exprs)                            (* all parts traversed *)
| Slice3 (es : exprs) (max : expr)            (* x[i:j:max] *)
| KeyVal (field : bool) (key value : expr)    (* key: value; field: the key names a struct field.
                                                 xgo does not know, and does not look *)
| Fun (params : list bytes) (body : stmts)    (* function literal: parameters and results *)
with exprs := Enil | Econs (e : expr) (es : exprs)
with stmt :=
| SExpr (es : exprs)                          (* expression, go, defer, return, send *)
| SAssign (lhs rhs : exprs)                   (* =, +=, ... *)
| SDefine (names : list bytes) (rhs : exprs)  (* := *)
| SIncDec (e : expr)
| SRange (names : list bytes) (assigned : exprs) (x : expr) (body : stmts)
| SIf (init : stmt) (cond : expr) (body : stmts) (els : stmt)
| SFor (init : stmt) (cond : exprs) (post : stmt) (body : stmts)
| SSwitch (init tag : stmt) (cs : clauses)    (* switch and type switch; tag: expression or v := x.(type) *)
| SSelect (cs : comms)
| SVar (names : list bytes) (values : exprs)  (* var and const *)
| SType (name : bytes)
| SBlock (body : stmts)
| SNone                                       (* empty, branch, bad *)
with stmts := Snil | Scons (s : stmt) (ss : stmts)
with clauses := Cnil | Ccons (list_ : exprs) (body : stmts) (cs : clauses)
with comms := Mnil | Mcons (comm : stmt) (body : stmts) (cs : comms).

Definition mem (x : bytes) (l : list bytes) : bool := existsb (eqs x) l.
(** name.go:34-36 isBlankName. *)
Definition blank (x : bytes) : bool := match x with [] => true | _ => eqs x #"_" end.

(** [pkgvar]: the package-level variables whose type is known (collect_var_ref.go:50-128);
  [decl]: all package-level names. *)
(** collect_var_ref.go:14-22, expr.go:63-66, 80-83; scope.go:182-193 Has: [env] is the set
    of names in the chain of scopes. *)
Definition collect (pkgvar : bytes -> bool) (env : list bytes) (p : nat) (x : bytes) : list nat :=
  if blank x || mem x env then [] else if pkgvar x then [p] else [].

(** expr.go:57-169 traverseExpr. *)
Fixpoint tr_expr (pkgvar decl : bytes -> bool) (env : list bytes) (e : expr) : list nat :=
  match e with
  | Id p x => collect pkgvar env p x
  | AddrField p x ok => if ok then collect pkgvar env p x else []
  | Sub es => tr_exprs pkgvar decl env es
  | Slice3 es _ => tr_exprs pkgvar decl env es
  (* expr.go:139-158 *)
  | KeyVal _ key value =>
      (match key with
       | Id p x => if mem x env || decl x then [] else tr_expr pkgvar decl env key
       | _ => tr_expr pkgvar decl env key
       end) ++ tr_expr pkgvar decl env value
  (* block.go:15-31 *)
  | Fun params body => tr_stmts pkgvar decl (filter (fun x => negb (blank x)) params ++ env) body
  end
with tr_exprs (pkgvar decl : bytes -> bool) (env : list bytes) (es : exprs) : list nat :=
  match es with Enil => [] | Econs e es => tr_expr pkgvar decl env e ++ tr_exprs pkgvar decl env es end
(** stmt.go:8-153 traverseStmt: the names in scope afterwards, and what is collected. *)
with tr_stmt (pkgvar decl : bytes -> bool) (env : list bytes) (s : stmt) : list bytes * list nat :=
  match s with
  | SExpr es => (env, tr_exprs pkgvar decl env es)
  | SAssign _ rhs => (env, tr_exprs pkgvar decl env rhs)
  | SDefine names rhs => (filter (fun x => negb (blank x)) names ++ env, tr_exprs pkgvar decl env rhs)
  | SIncDec _ => (env, [])
  | SRange names _ x body =>
      let env := filter (fun x => negb (blank x)) names ++ env in
      (env, tr_expr pkgvar decl env x ++ tr_stmts pkgvar decl env body)
  | SIf init cond body els =>
      let '(env, a) := tr_stmt pkgvar decl env init in
      let b := tr_expr pkgvar decl env cond ++ tr_stmts pkgvar decl env body in
      let '(env, c) := tr_stmt pkgvar decl env els in
      (env, a ++ b ++ c)
  | SFor init cond post body =>
      let '(env, a) := tr_stmt pkgvar decl env init in
      let b := tr_exprs pkgvar decl env cond in
      let '(env, c) := tr_stmt pkgvar decl env post in
      (env, a ++ b ++ c ++ tr_stmts pkgvar decl env body)
  | SSwitch init tag cs =>
      let '(env, a) := tr_stmt pkgvar decl env init in
      let '(env, b) := tr_stmt pkgvar decl env tag in
      (env, a ++ b ++ tr_clauses pkgvar decl env cs)
  | SSelect cs => (env, tr_comms pkgvar decl env cs)
  (* decl.go:5-34 *)
  | SVar names values => (names ++ env, tr_exprs pkgvar decl env values)
  | SType name => (name :: env, [])
  | SBlock body => (env, tr_stmts pkgvar decl env body)
  | SNone => (env, [])
  end
(** block.go:33-42 traverseBlockStmt: a new scope. *)
with tr_stmts (pkgvar decl : bytes -> bool) (env : list bytes) (ss : stmts) : list nat :=
  match ss with
  | Snil => []
  | Scons s ss => let '(env, a) := tr_stmt pkgvar decl env s in a ++ tr_stmts pkgvar decl env ss
  end
(** stmt.go:139-140. *)
with tr_clauses (pkgvar decl : bytes -> bool) (env : list bytes) (cs : clauses) : list nat :=
  match cs with Cnil => [] | Ccons _ body cs => tr_stmts pkgvar decl env body ++ tr_clauses pkgvar decl env cs end
(** stmt.go:141-144. *)
with tr_comms (pkgvar decl : bytes -> bool) (env : list bytes) (cs : comms) : list nat :=
  match cs with Mnil => [] | Mcons _ body cs => tr_stmts pkgvar decl env body ++ tr_comms pkgvar decl env cs end.

(** traverse.go:177-198, block.go:15-31: a function declaration; its type parameters are
    not looked at. *)
Definition tr_func (pkgvar decl : bytes -> bool) (tparams params : list bytes) (body : stmts) : list nat :=
  tr_stmts pkgvar decl (filter (fun x => negb (blank x)) params) body.
