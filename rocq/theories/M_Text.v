(** * Model of small text edits: .gitignore, the blank import, argument batches, shell quoting *)
From Coq Require Import Ascii String List Arith Bool.
From Verif Require Import M_Str.
Import ListNotations.
Open Scope nat_scope.
Open Scope list_scope.
Local Notation newline := "010"%char.
Local Notation cr := "013"%char.

(** ** cmd/xgo/instrument.go:622-655 *)
(** isDirectiveEnd, given content[i:]. *)
Fixpoint skip_blanks (s : bytes) : bytes :=
  match s with
  | c :: r => if eqc c " "%char || eqc c "009"%char then skip_blanks r else s
  | [] => []
  end.
Definition is_directive_end (s : bytes) : bool :=
  match skip_blanks s with
  | [] => true
  | s => if has_suffix s #"#" then true else if has_suffix s [newline] then true else if has_suffix s [cr; newline] then true else false
  end.
(** gitignoreAdd: the new content and whether it was updated. *)
Definition gitignore_add (content pattern : bytes) : bytes * bool :=
  let add := content ++ (match content with [] => [] | _ => if has_suffix content [newline] then [] else [newline] end) ++ pattern ++ [newline] in
  match index content pattern with
  | Some i => if is_directive_end (skipn (i + length pattern) content) then (content, false) else (add, true)
  | None => (add, true)
  end.

(** ** cmd/xgo/trace.go:685-711 addBlankImport *)
Definition trace_import : bytes := #"import _ ""github.com/xhd2015/xgo/runtime/trace""".
Definition add_blank_import (content : bytes) : option bytes :=
  match index content #"package " with
  | None => None
  | Some idx =>
      let sub := skipn idx content in
      (* rIdx > 0: the carriage return is never first here, as sub begins with 'p' *)
      let '(base, sub) := match index sub [cr] with
                          | Some r => if 0 <? r then (idx + r, skipn (r + 1) sub) else (idx, sub)
                          | None => (idx, sub)
                          end in
      match index sub [newline] with
      | None => Some (content ++ #";" ++ trace_import)
      | Some n =>
          let base := base + n in
          let sep := if (0 <? base) && eqc (nth (base - 1) content newline) ";"%char then [] else #";" in
          Some (firstn base content ++ (sep ++ trace_import) ++ skipn base content)
      end
  end.

(** ** cmd/xgo/trace.go:487-516 splitArgsBatch; the copying loops are written as slices. *)
Definition split_args_batch {A} (args : list A) (limit : nat) : list (list A) :=
  if length args <=? limit then [args]
  else
    let n := length args / limit in
    let remain := length args - n * limit in
    map (fun i => firstn limit (skipn (i * limit) args)) (seq 0 n) ++
    (if 0 <? remain then [skipn (n * limit) args] else []).

(** ** support/cmd/quote.go Quote *)
Definition shell_special : bytes := ["009"%char] ++ #" " ++ [newline] ++ #";<>\${}()&!*".
Definition contains_any (s chars : bytes) : bool := existsb (fun c => containsc c chars) s.
Definition quote (s : bytes) : bytes :=
  match s with
  | [] => #""""""
  | _ =>
      if contains_any s shell_special
      then #"'" ++ flat_map (fun c => if eqc c "'"%char then #"'\''" else [c]) s ++ #"'"
      else s
  end.
(** support/cmd/cmd.go:129-137: the command line shown. *)
Definition shown_command (cmd : bytes) (args : list bytes) : bytes := join #" " (cmd :: map quote args).
