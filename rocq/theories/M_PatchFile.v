(** * Model of the reader of .xgo.patch files (instrument/patch/apply_parse.go, apply_types.go) *)
From Coq Require Import Ascii String List Arith Bool Lia.
From Verif Require Import M_Str M_Module M_Patch.
Import ListNotations.
Open Scope nat_scope. Open Scope list_scope.

(** strings.TrimRight(s, " \t\r") and TrimLeft(s, " \t"). *)
Definition is_trail (c : ascii) : bool := is_blank c || eqc c "013"%char.
Definition trim_right (s : bytes) : bytes := rev (trim_left_by is_trail (rev s)).
(** strings.TrimSuffix *)
Definition trim_suffix (s suf : bytes) : bytes := if has_suffix s suf then firstn (length s - length suf) s else s.
(** apply_parse.go:122-133 splitCommand *)
Definition split_command (line : bytes) : bytes * bytes :=
  let trimmed := trim_left_by is_blank (trim_right line) in
  match cut_first " "%char trimmed with None => (trimmed, []) | Some (cmd, rest) => (cmd, rest) end.
(** 140-162 parseGotoTarget *)
Definition parse_goto (target : bytes) : option command :=
  if eqs target #"opening {" || eqs target #"closing }" || has_prefix target #"field " || has_prefix target #"struct " ||
     has_prefix target #"interface " || has_prefix target #"func " then Some (Goto target) else None.
(** 164-177 parseCopyFuncLine.  TrimSpace for ASCII, here and below. *)
Definition parse_copy (rest : bytes) : option command :=
  let rest := trim_space rest in
  match index rest #" as " with
  | None => None
  | Some i => Some (CopyFunc (firstn i rest) (trim_suffix (skipn (i + 4) rest) #" append to file end"))
  end.
(** 179-192 parseReplaceDirectiveLine *)
Definition parse_directive (rest : bytes) : option command :=
  let rest := trim_space rest in
  match index rest #" with " with
  | None => None
  | Some i => Some (ReplaceDirective (firstn i rest) (skipn (i + 6) rest))
  end.
Definition needs (rest : bytes) (c : command) : option command := match rest with [] => None | _ => Some c end.
(** 81-120 parseLine.  None: an error is returned. *)
Definition parse_line (line : bytes) : option command :=
  let '(cmd, rest) := split_command line in
  if eqs cmd #"goto" then parse_goto rest
  else if eqs cmd #"match" then Some (Match rest)
  else if eqs cmd #"find_for_replace" then Some (FindForReplace rest)
  else if eqs cmd #"insert_before" then needs rest (InsertBefore rest)
  else if eqs cmd #"insert_after_line" then needs rest (InsertAfterLine rest)
  else if eqs cmd #"insert_after" then needs rest (InsertAfter rest)
  else if eqs cmd #"replace" then needs rest (ReplaceWith rest)
  else if eqs cmd #"newline" then Some Newline
  else if eqs cmd #"copy_func" then parse_copy rest
  else if eqs cmd #"replace_directive" then parse_directive rest
  else None.
(** 64-76 *)
Fixpoint parse_lines (lines : list bytes) : option (list command) :=
  match lines with
  | [] => Some []
  | l :: r =>
      let l := trim_right l in
      if match l with [] => true | _ => has_prefix l #"#" end then parse_lines r
      else match parse_line l with
           | None => None
           | Some c => match parse_lines r with None => None | Some cs => Some (c :: cs) end
           end
  end.
(** 50-79 parseBlock; the positions of the tags, which it looks for again, are those that parseBlocks found. *)
Definition parse_block (tag body : bytes) : option block :=
  match parse_lines (split newline body) with
  | None => None
  | Some cs => Some {| b_name := trim_space tag; b_commands := cs |}
  end.
(** 17-48 parseBlocks, 9-15 ParseXgoPatch.  [fuel]: at most the length of the content is needed. *)
Fixpoint parse_blocks (fuel : nat) (content : bytes) : option (list block) :=
  match fuel with
  | 0 => Some []
  | S fuel =>
      match index content #"<patch" with
      | None => Some []
      | Some i =>
          let c := skipn i content in
          match index c #">" with
          | None => None
          | Some j =>
              let rest := skipn (j + 1) c in
              match index rest #"</patch>" with
              | None => None
              | Some k =>
                  match parse_block (firstn (j - 6) (skipn 6 c)) (firstn k rest) with
                  | None => None
                  | Some b => match parse_blocks fuel (skipn (k + 8) rest) with None => None | Some bs => Some (b :: bs) end
                  end
              end
          end
      end
  end.
Definition parse_patch (content : bytes) : option (list block) := parse_blocks (S (length content)) content.
(** apply_types.go:49-74 Command.String *)
Definition command_string (c : command) : bytes :=
  match c with
  | Goto t => #"goto " ++ t
  | Match t => #"match " ++ t
  | FindForReplace t => #"find_for_replace " ++ t
  | InsertBefore t => #"insert_before " ++ t
  | InsertAfter t => #"insert_after " ++ t
  | InsertAfterLine t => #"insert_after_line " ++ t
  | ReplaceWith t => #"replace " ++ t
  | Newline => #"newline"
  | CopyFunc a b => #"copy_func " ++ a ++ #" as " ++ b ++ #" append to file end"
  | ReplaceDirective a b => #"replace_directive " ++ a ++ #" with " ++ b
  end.
