(** * The line-wise patcher (support/transform/patch, support/transform/edit/line). *)
From Coq Require Import Ascii String List Arith Bool Sorted Lia.
From Verif Require Import M_Str M_Patch.
Import ListNotations.
Open Scope nat_scope.

(** ** Unpatching: patch/unpatch/unpatch.go, patch/format/format.go:3-17 *)
Definition u_begin := #"/*<begin ".
Definition u_end := #"/*<end ".
Definition u_close := #">*/".
Definition replaced_begin := #"/*<replaced>".
Definition replaced_end := #"</replaced>*/".
Inductive found := FError | FNone | FRange (l r : nat).
(** unpatch.go:47-80 findRange. *)
Definition find_range (s : bytes) (start : nat) : found :=
  match index (skipn start s) u_begin with
  | None => FNone
  | Some i =>
      let lft := start + i in
      let i := lft + length u_begin in
      match index (skipn i s) #"*/" with
      | None => FError
      | Some c =>
          match nth_error s (i + c - 1) with
          | Some ch =>
              if negb (eqc ch ">"%char) then FError
              else
                let c := c - 1 in
                let id := firstn c (skipn i s) in
                match id with
                | [] => FError
                | _ =>
                    let i := i + c + length u_close in
                    let e := u_end ++ id ++ u_close in
                    match index (skipn i s) e with
                    | None => FError
                    | Some k => FRange lft (k + i + length e)
                    end
                end
          | None => FError
          end
      end
  end.
(** unpatch.go:82-96 findReplaced. *)
Definition find_replaced (s : bytes) (i j : nat) : found :=
  let sub := slice s i j in
  match index sub replaced_begin with
  | None => FNone
  | Some lft =>
      let p := lft + length replaced_begin in
      match index (skipn p sub) replaced_end with
      | None => FError
      | Some rgt => FRange (lft + i + length replaced_begin) (rgt + p + i)
      end
  end.
(** unpatch.go:17-45 Unpatch; [None]: an error.  The fuel bounds the number of regions. *)
Fixpoint unpatch_from (fuel : nat) (text : bytes) (i : nat) : option bytes :=
  match fuel with
  | 0 => None
  | S fuel =>
      match find_range text i with
      | FError => None
      | FNone => Some (skipn i text)
      | FRange l r =>
          match find_replaced text l r with
          | FError => None
          | FNone => option_map (fun t => slice text i l ++ t) (unpatch_from fuel text r)
          | FRange a b => option_map (fun t => slice text i l ++ slice text a b ++ t) (unpatch_from fuel text r)
          end
      end
  end.
Definition unpatch (text : bytes) : option bytes := unpatch_from (S (length text)) text 0.

(** ** Line edits: edit/line/line.go *)
(** line.go:14-20; Prepend, Append and Replace (22-44) fill one of the three lists. *)
Record ledit := { l_id : bytes; l_line : nat; l_prepend : list bytes; l_append : list bytes; l_replace : list bytes }.
(** line.go:107-117 appendLines, what it adds. *)
Definition region (id : bytes) (ls : list bytes) : list bytes :=
  match ls, id with
  | [], _ => []
  | _, [] => ls
  | _, _ => (u_begin ++ id ++ u_close) :: ls ++ [u_end ++ id ++ u_close]
  end.
(** line.go:70-73: the edits of the same line that follow. *)
Fixpoint same_line (line : nat) (es : list ledit) : list ledit * list ledit :=
  match es with
  | [] => ([], [])
  | e :: r => if l_line e =? line then let '(a, b) := same_line line r in (e :: a, b) else ([], es)
  end.
Definition replacing (es : list ledit) : list ledit := filter (fun e => match l_replace e with [] => false | _ => true end) es.
(** line.go:82-97: what takes the place of the line; [None]: index out of range. *)
Definition line_or_replaced (lines : list bytes) (cursor : nat) (es : list ledit) : option (list bytes) :=
  match rev (replacing es) with
  | [] => option_map (fun l => [l]) (nth_error lines (cursor - 1))
  | e :: _ =>
      let new := flat_map (fun e => region (l_id e) (l_replace e)) (replacing es) in
      match l_id e with
      | [] => Some new
      | id => option_map (fun l => new ++ region id [replaced_begin; l; replaced_end]) (nth_error lines (cursor - 1))
      end
  end.
(** line.go:46-105 Apply, on sorted edits; [None]: an error or a panic. *)
Fixpoint apply_sorted_lines (fuel : nat) (lines : list bytes) (cursor : nat) (es : list ledit) : option (list bytes) :=
  match es, fuel with
  | [], _ => if cursor - 1 <=? length lines then Some (skipn (cursor - 1) lines) else None
  | _, 0 => None
  | e :: _, S fuel =>
      let line := l_line e in
      if length lines <? line then None
      else
        let before := if cursor <? line then firstn (line - 1 - (cursor - 1)) (skipn (cursor - 1) lines) else [] in
        let cursor := Nat.max cursor line in
        let '(same, rest) := same_line line es in
        match line_or_replaced lines cursor same with
        | None => None
        | Some mid =>
            option_map (fun t => before ++ flat_map (fun e => region (l_id e) (l_prepend e)) same ++ mid ++
                                 flat_map (fun e => region (l_id e) (l_append e)) same ++ t)
              (apply_sorted_lines fuel lines (S cursor) rest)
        end
  end.
(** line.go:48-54: sort.Slice sorts by line; how it orders the edits of one line is left open
    (the comparison looks at moving indices), so every order is covered. *)
Definition by_line (es : list ledit) : Prop := StronglySorted (fun a b => l_line a <= l_line b) es.
Definition apply_lines (lines : list bytes) (sorted : list ledit) : option (list bytes) :=
  apply_sorted_lines (length sorted) lines 1 sorted.

(** ** Patch: patch/patch.go:17-32, 58-142; [locate]: the edits found by comparing the syntax
    trees of source and patch ([None]: parse error or panic), already sorted. *)
Definition patch (locate : bytes -> option (list ledit)) (old : bytes) : option bytes :=
  match unpatch old with
  | None => None
  | Some old =>
      match locate old with
      | None => None
      | Some es => option_map (join [newline]) (apply_lines (split newline old) es)
      end
  end.

(** ** Matching nodes: patch/patch.go:244-308 patchNodes, findMatch.  [same] is the comparison
    of syntax trees (astdiff.NodeSame, or FuncDeclSameIgnoreBody for functions). *)
Section Match.
  Context {A : Type} (same : A -> A -> bool).
  (** patch.go:286-308. *)
  Fixpoint find_match (l : list A) (x : A) : option nat :=
    match l with [] => None | y :: r => if same y x then Some 0 else option_map S (find_match r x) end.
  (** patch.go:244-278: the index in [src] that each patch node is matched to; [None]: panic.
      [base] is srcIndex. *)
  Fixpoint match_nodes (src : list A) (base : nat) (pat : list A) : option (list nat) :=
    match pat with
    | [] => Some []
    | x :: pat =>
        match src with
        | [] => None
        | _ =>
            match find_match src x with
            | None => None
            | Some m => option_map (cons (base + m)) (match_nodes (skipn m src) (base + m) pat)
            end
        end
    end.
End Match.

(** ** Patch instructions: patch/parse.go *)
(** strings.TrimSpace on ASCII text. *)
Definition is_sp (c : ascii) : bool := existsb (eqc c) (" "%char :: map ascii_of_nat [9; 10; 11; 12; 13]).
Fixpoint drop_sp (s : bytes) : bytes := match s with c :: r => if is_sp c then drop_sp r else s | [] => [] end.
Definition trim_space (s : bytes) : bytes := rev (drop_sp (rev (drop_sp s))).
Inductive kind := KAppend | KPrepend | KReplace.
Definition kind_word (k : kind) : bytes := match k with KAppend => #"append" | KPrepend => #"prepend" | KReplace => #"replace" end.
(** parse.go:155-175 tryCommand: None - not this command; Some None - an error. *)
Definition try_command (line : bytes) (k : kind) : option (option (bytes * bytes)) :=
  let prefix := kind_word k ++ #" " in
  if negb (has_prefix line prefix) then None
  else
    let remain := trim_space (skipn (length prefix) line) in
    match remain with
    | c :: r =>
        if eqc c "<"%char then
          match index r #">" with
          | None => Some None
          | Some idx => Some (Some (firstn idx r, skipn (S idx) r))
          end
        else Some (Some ([], remain))
    | [] => Some (Some ([], remain))
    end.
(** parse.go:81-85: what a command has collected: its id and its lines. *)
Record pcmd := { p_id : bytes; p_lines : list bytes }.
Record pcmds := { c_app : pcmd; c_pre : pcmd; c_rep : pcmd }.
Definition get_cmd (k : kind) (c : pcmds) : pcmd := match k with KAppend => c_app c | KPrepend => c_pre c | KReplace => c_rep c end.
Definition set_cmd (k : kind) (x : pcmd) (c : pcmds) : pcmds :=
  match k with
  | KAppend => {| c_app := x; c_pre := c_pre c; c_rep := c_rep c |}
  | KPrepend => {| c_app := c_app c; c_pre := x; c_rep := c_rep c |}
  | KReplace => {| c_app := c_app c; c_pre := c_pre c; c_rep := x |}
  end.
Definition no_cmd := {| p_id := []; p_lines := [] |}.
Definition no_cmds := {| c_app := no_cmd; c_pre := no_cmd; c_rep := no_cmd |}.
(** parse.go:117-136: the first of the commands that matches. *)
Fixpoint first_command (line : bytes) (ks : list kind) : option (option (kind * bytes * bytes)) :=
  match ks with
  | [] => None
  | k :: ks =>
      match try_command line k with
      | None => first_command line ks
      | Some None => Some None
      | Some (Some (id, content)) => Some (Some (k, id, content))
      end
  end.
(** parse.go:100-140; [None]: an error. *)
Fixpoint parse_loop (comments : list bytes) (last : option kind) (c : pcmds) : option pcmds :=
  match comments with
  | [] => Some c
  | line :: rest =>
      let t := trim_space line in
      match t with
      | [] => parse_loop rest last c
      | _ =>
        if eqs t #"..." then parse_loop rest last c
        else if has_prefix line #" " then
          match last with
          | None => None
          | Some k => let x := get_cmd k c in parse_loop rest last (set_cmd k {| p_id := p_id x; p_lines := p_lines x ++ [t] |} c)
          end
        else
          match first_command line [KAppend; KPrepend; KReplace] with
          | None => None
          | Some None => None
          | Some (Some (k, id, content)) =>
              let x := get_cmd k c in
              match id, p_id x with
              | [], old => parse_loop rest (Some k) (set_cmd k {| p_id := old; p_lines := p_lines x ++ [content] |} c)
              | _, [] => parse_loop rest (Some k) (set_cmd k {| p_id := id; p_lines := p_lines x ++ [content] |} c)
              | _, old => if eqs old id then parse_loop rest (Some k) (set_cmd k {| p_id := old; p_lines := p_lines x ++ [content] |} c) else None
              end
          end
      end
  end.
(** parse.go:142-152. *)
Definition has_id (x : pcmd) : bool := match p_lines x, p_id x with _ :: _, [] => false | _, _ => true end.
Definition parse_comments (comments : list bytes) : option pcmds :=
  match parse_loop comments None no_cmds with
  | None => None
  | Some c => if has_id (c_app c) && has_id (c_pre c) && has_id (c_rep c) then Some c else None
  end.
(** parse.go:43-49, patch.go:262-276: what is done with the comments above one node of the patch,
    matched to line [line]; the error is dropped. *)
Definition node_edits (comments : list bytes) (line : nat) : list ledit :=
  match comments with
  | [] => []
  | _ =>
      match parse_comments comments with
      | None => []
      | Some c =>
          (match p_lines (c_app c) with [] => [] | ls => [{| l_id := p_id (c_app c); l_line := line; l_prepend := []; l_append := ls; l_replace := [] |}] end) ++
          (match p_lines (c_pre c) with [] => [] | ls => [{| l_id := p_id (c_pre c); l_line := line; l_prepend := ls; l_append := []; l_replace := [] |}] end) ++
          (match p_lines (c_rep c) with [] => [] | ls => [{| l_id := p_id (c_rep c); l_line := line; l_prepend := []; l_append := []; l_replace := ls |}] end)
      end
  end.
