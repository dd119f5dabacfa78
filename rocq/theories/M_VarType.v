(** * The text of a variable's type in the functions generated for it, and the imports that text
    needs (instrument/instrument_var/trap_var.go:75-93, 140-267) *)
From Coq Require Import Ascii String List Arith Bool Lia.
From Verif Require Import M_Str M_Version M_Instrument.
Import ListNotations.
Open Scope nat_scope.
Open Scope list_scope.

(** instrument/resolve/types/type.go: the types a value can be resolved to; [Unsupported]: those
    doUseTypeInFile does not know (trap_var.go:222-223); a LazyType is what its function returns. *)
Inductive ty :=
  | Basic (name : bytes)
  | Named (path name : bytes)
  | Ptr (t : ty)
  | Signature
  | Tuple (ts : list ty)
  | Map (k v : ty)
  | Slice (t : ty)
  | Lazy (t : ty)
  | Inst (t : ty) (params : list ty)
  | Unsupported.
(** trap_var.go:226-238, and the edits of a UseContext (147, 174-177): package path, reference *)
Record recorder := { refs : list (bytes * bytes); refNum : nat }.
Record state := { rec : recorder; edits : list (bytes * bytes) }.
Definition lookup (l : list (bytes * bytes)) (p : bytes) : option bytes := option_map snd (find (fun e => eqs (fst e) p) l).
(** trap_var.go:240-258; None: panic *)
Definition RecordImport (c : recorder) (pkgPath ref : bytes) : option (bytes * bool * recorder) :=
  if eqs pkgPath [] || eqs ref [] then None
  else match lookup (refs c) pkgPath with
       | Some prev => Some (prev, false, c)
       | None => let ref := if 0 <? refNum c then ref ++ #"_" ++ itoa (refNum c) else ref in
                 Some (ref, true, {| refs := (pkgPath, ref) :: refs c; refNum := S (refNum c) |})
       end.
(** trap_var.go:260-262 *)
Definition Remove (c : recorder) (pkgPath : bytes) : recorder := {| refs := filter (fun e => negb (eqs (fst e) pkgPath)) (refs c); refNum := refNum c |}.
Section Use.
  (** token.IsExported *)
  Variable exported : bytes -> bool.
  (** the package of the file *)
  Variable pkgPath : bytes.
  (** trap_var.go:193: the reference asked for *)
  Variable ref : bytes.
  (** trap_var.go:179-224; None: panic *)
  Fixpoint doUse (t : ty) (s : state) {struct t} : option bytes * state :=
    let doUses := fix doUses (ts : list ty) (s : state) {struct ts} : option (list bytes) * state :=
      match ts with
      | [] => (Some [], s)
      | t :: r => match doUse t s with
                  | (None, s) => (None, s)
                  | (Some c, s) => match doUses r s with (None, s) => (None, s) | (Some cs, s) => (Some (c :: cs), s) end
                  end
      end in
    match t with
    | Basic n => (Some n, s)
    | Named p n =>
        if eqs p pkgPath then (Some n, s)
        else if negb (exported n) then (None, s)
        else match RecordImport (rec s) p ref with
             | None => (None, s)
             | Some (pkgRef, isNew, c) => (Some (pkgRef ++ #"." ++ n), {| rec := c; edits := if isNew then edits s ++ [(p, pkgRef)] else edits s |})
             end
    | Ptr t => match doUse t s with (None, s) => (None, s) | (Some c, s) => (Some (#"*" ++ c), s) end
    | Signature => (None, s)
    | Tuple [] => (Some [], s)
    | Tuple [t] => doUse t s
    | Tuple ts => match doUses ts s with (None, s) => (None, s) | (Some cs, s) => (Some (#"(" ++ join #", " cs ++ #")"), s) end
    | Map k v => match doUse k s with
                 | (None, s) => (None, s)
                 | (Some ck, s) => match doUse v s with (None, s) => (None, s) | (Some cv, s) => (Some (#"map[" ++ ck ++ #"]" ++ cv), s) end
                 end
    | Slice t => match doUse t s with (None, s) => (None, s) | (Some c, s) => (Some (#"[]" ++ c), s) end
    | Lazy t => doUse t s
    | Inst t ps => match doUses ps s with
                   | (None, s) => (None, s)
                   | (Some cs, s) => match doUse t s with (None, s) => (None, s) | (Some c, s) => (Some (c ++ #"[" ++ join #", " cs ++ #"]"), s) end
                   end
    | Unsupported => (None, s)
    end.
  (** trap_var.go:150-172: the text ("": the variable is left alone, 91-93), the recorder after it,
      the imports added *)
  Definition useTypeInFile (c : recorder) (t : ty) : bytes * recorder * list (bytes * bytes) :=
    match doUse t {| rec := c; edits := [] |} with
    | (None, s) => ([], fold_left (fun c e => Remove c (fst e)) (edits s) (rec s), [])
    | (Some code, s) => (code, rec s, edits s)
    end.
End Use.
(** trap_var.go:40-54: the variables of one file, in order: the line and the column of each name (193)
    and its type. The texts, and the imports of the file. *)
Definition ref_of (line col : nat) : bytes := #"__xgo_var_ref_" ++ itoa line ++ #"_" ++ itoa col.
Fixpoint use_all (exported : bytes -> bool) (pkgPath : bytes) (c : recorder) (decls : list (nat * nat * ty)) : list bytes * list (bytes * bytes) :=
  match decls with
  | [] => ([], [])
  | (line, col, t) :: r =>
      let '(code, c, es) := useTypeInFile exported pkgPath (ref_of line col) c t in
      let '(codes, es') := use_all exported pkgPath c r in (code :: codes, es ++ es')
  end.
Definition file_types (exported : bytes -> bool) (pkgPath : bytes) (decls : list (nat * nat * ty)) := use_all exported pkgPath {| refs := []; refNum := 0 |} decls.
