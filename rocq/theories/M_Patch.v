(** * Marked source patches: instrument/patch/{clean_patch,patch,apply,apply_engine}.go and
    support/strutil/strutil.go. *)
From Coq Require Import Ascii String List Arith Bool Lia.
From Verif Require Import M_Str.
Import ListNotations.
Open Scope nat_scope.

Definition newline : ascii := "010"%char.
Definition slice (s : bytes) (i j : nat) : bytes := firstn (j - i) (skipn i s).
(** strings.LastIndex(s, sub). *)
Fixpoint last_index (s sub : bytes) : option nat :=
  match match s with [] => None | _ :: r => last_index r sub end with
  | Some n => Some (S n)
  | None => if has_prefix s sub then Some 0 else None
  end.

(** ** Cleaning *)
(** clean_patch.go:83-96. *)
Definition extract_old (c : bytes) : bytes :=
  match index c #"/*old:" with
  | None => []
  | Some i =>
      let base := i + 6 in
      match index (skipn base c) #"*/" with
      | None => []
      | Some e => slice c base (base + e)
      end
  end.
(** clean_patch.go:33-47 and apply.go:255-268: end of the line after the one that [start]
    is on (without its line break). *)
Definition next_line_end (content : bytes) (start : nat) : nat :=
  match index (skipn start content) [newline] with
  | None => length content
  | Some f =>
      let after := start + f + 1 in
      match index (skipn after content) [newline] with
      | None => length content
      | Some g => after + g
      end
  end.
(** clean_patch.go:14-51; the loop runs on fuel, [None]: fuel exhausted (never, see
    [clean_next_line_total]). *)
Definition annot_open := #"/*<next-line-original ".
Definition annot_close := #"</next-line-original>*/".
Fixpoint clean_next_line (fuel : nat) (content : bytes) : option bytes :=
  match index content annot_open with
  | None => Some content
  | Some a =>
      match index (skipn (a + length annot_open) content) #">" with
      | None => Some content
      | Some n =>
          let start := n + a + length annot_open + 1 in
          match index (skipn start content) annot_close with
          | None => Some content
          | Some c =>
              let close := c + start in
              let old := slice content start close in
              let e := next_line_end content (close + length annot_close) in
              match fuel with
              | 0 => None
              | S fuel => clean_next_line fuel (firstn a content ++ old ++ skipn e content)
              end
          end
      end
  end.
(** clean_patch.go:120-133; marker.Begin, marker.End and label given separately. *)
Definition find_marker (content : bytes) (i : nat) (mbegin mend label : bytes) : option (nat * nat) :=
  match index (skipn i content) (mbegin ++ label) with
  | None => None
  | Some s =>
      let start := s + i in
      let j := start + length mbegin + length label in
      match index (skipn j content) mend with
      | None => None
      | Some e => Some (start, e + j + length mend)
      end
  end.
(** clean_patch.go:98-114, for the markers that CleanPatch uses (clean_patch.go:11). *)
Definition find_start_end (content : bytes) (i : nat) : option (nat * nat * nat * nat) :=
  match find_marker content i #"/*<begin" #">*/" [] with
  | None => None
  | Some (b, be) =>
      let label := slice content (b + length #"/*<begin") (be - length #">*/") in
      match find_marker content be #"/*<end" #">*/" label with
      | None => None
      | Some (e, ee) => Some (b, be, e, ee)
      end
  end.
(** clean_patch.go:58-81. *)
Fixpoint clean_markers (fuel : nat) (content : bytes) (i : nat) : option bytes :=
  if length content <=? i then Some []
  else
    match find_start_end content i with
    | None => Some (skipn i content)
    | Some (b, be, e, ee) =>
        match fuel with
        | 0 => None
        | S fuel => option_map (fun r => slice content i b ++ extract_old (slice content be e) ++ r) (clean_markers fuel content ee)
        end
    end.
(** clean_patch.go:9-12. *)
Definition clean_patch (content : bytes) : option bytes :=
  match clean_next_line (length content) content with
  | None => None
  | Some c => clean_markers (length c) c 0
  end.

(** ** Marked updates *)
(** support/strutil/strutil.go:33-65; [None] for the index -1. Returns None for "not found";
    an index out of range panics in Go and is excluded by the type [anchor_ok]. *)
Fixpoint index_sequence (s : bytes) (sequence : list bytes) (i anchor : nat) (begin : bool) (cursor : nat)
    (rec : nat * nat) : option (nat * nat * nat) :=
  match sequence with
  | [] => Some (fst rec, snd rec, cursor)
  | seq :: rest =>
      match index s seq with
      | None => None
      | Some idx =>
          let cursor := cursor + (idx + length seq) in
          let rec := if i =? anchor then ((if begin then cursor - length seq else cursor), length seq) else rec in
          index_sequence (skipn (idx + length seq) s) rest (S i) anchor begin cursor rec
      end
  end.
(** strutil.go:23-25 SequenceOffset; [None]: panic (index out of range), [Some None]: -1. *)
Definition sequence_offset (s : bytes) (sequence : list bytes) (i : nat) (begin : bool) : option (option (nat * nat * nat)) :=
  match sequence with
  | [] => Some None
  | _ => if length sequence <=? i then None else Some (index_sequence s sequence 0 i begin 0 (0, 0))
  end.

Inductive tried := TPanic | TNo | TYes (content : bytes).
(** patch.go:203-221; simplification: separator is always "". *)
Definition try_replace (content bm em patch : bytes) : tried :=
  match bm, em with
  | [], _ | _, [] => TPanic
  | _, _ =>
      match index content bm with
      | None => TNo
      | Some b =>
          match index content em with
          | None => TNo
          | Some e =>
              if e <? b + length bm then TPanic
              else
                let old := extract_old (slice content (b + length bm) e) in
                TYes (firstn b content ++ bm ++ (old ++ patch) ++ em ++ skipn (e + length em) content)
          end
      end
  end.
(** patch.go:185-201; [None]: panic. *)
Definition insert_or_replace (content : bytes) (replace : bool) (replace_len : nat) (bm em : bytes) (idx : nat) (ins : bytes) : option bytes :=
  match ins with
  | [] => Some content
  | _ =>
      match try_replace content bm em ins with
      | TPanic => None
      | TYes c => Some c
      | TNo =>
          if replace then
            Some (firstn idx content ++ bm ++ (#"/*old:" ++ slice content idx (idx + replace_len) ++ #"*/") ++ ins ++ em
                  ++ skipn (idx + replace_len) content)
          else
            let closure := bm ++ ins ++ em in
            if contains content closure then Some content
            else Some (firstn idx content ++ closure ++ skipn idx content)
      end
  end.
Inductive position := After | Before | Replace.
(** patch.go:123-154 updateContent, behind UpdateContent and UpdateContentLines
    (patch.go:115-121); [None]: panic. *)
Definition update_content (content bm em : bytes) (seq : list bytes) (i : nat) (pos : position) (patch : bytes) : option bytes :=
  let is_replace := match pos with Replace => true | _ => false end in
  let go :=
    let begin := match pos with After => false | _ => true end in
    match sequence_offset content seq i begin with
    | None | Some None => None
    | Some (Some (offset, alen, endo)) =>
        match sequence_offset (skipn endo content) seq i false with
        | Some None => insert_or_replace content is_replace alen bm em offset patch
        | _ => None
        end
    end in
  if is_replace then
    match try_replace content bm em patch with
    | TPanic => None
    | TYes c => Some c
    | TNo => go
    end
  else go.
(** patch.go:12-38 EditFile: the new content of the file, [None] when an error is returned
    and nothing is written.  [cb] is the callback ([None]: error or panic). *)
Definition edit_file (cb : bytes -> option bytes) (file : bytes) : option bytes :=
  match clean_patch file with
  | None => None
  | Some content =>
      match cb content with
      | None => None
      | Some c => if eqs c content then Some file else Some c
      end
  end.

(** ** Patch files *)
(** apply.go:239-310 clearPatch; the two loops run on fuel ([clear_patch_total]). *)
Definition annot_begin (name : bytes) := #"/*<next-line-original " ++ name ++ #">".
Fixpoint clear_annots (fuel : nat) (name content : bytes) : option bytes :=
  match index content (annot_begin name) with
  | None => Some content
  | Some a =>
      let start := a + length (annot_begin name) in
      match index (skipn start content) annot_close with
      | None => Some content
      | Some c =>
          let close := c + start in
          let old := slice content start close in
          let e := next_line_end content (close + length annot_close) in
          match fuel with
          | 0 => None
          | S fuel => clear_annots fuel name (firstn a content ++ old ++ skipn e content)
          end
      end
  end.
Definition mark_begin (name : bytes) := #"/*<begin " ++ name ++ #">".
Definition mark_end (name : bytes) := #"/*<end " ++ name ++ #">*/".
Fixpoint clear_blocks (fuel : nat) (name content : bytes) : option bytes :=
  match index content (mark_begin name) with
  | None => Some content
  | Some b =>
      match index (skipn b content) #"*/" with
      | None => Some content
      | Some x =>
          let be := x + b + 2 in
          match index (skipn be content) (mark_end name) with
          | None => Some content
          | Some y =>
              let e := y + be in
              let ee := e + length (mark_end name) in
              let old := extract_old (slice content be e) in
              match fuel with
              | 0 => None
              | S fuel => clear_blocks fuel name (firstn b content ++ old ++ skipn ee content)
              end
          end
      end
  end.
Definition clear_patch (content name : bytes) : option bytes :=
  match clear_annots (length content) name content with
  | None => None
  | Some c => clear_blocks (length c) name c
  end.

(** apply_types.go:32-46. *)
Inductive command :=
| Goto (target : bytes)
| Match (text : bytes)
| FindForReplace (text : bytes)
| InsertBefore (text : bytes)
| InsertAfter (text : bytes)
| InsertAfterLine (text : bytes)
| ReplaceWith (text : bytes)
| Newline
| CopyFunc (source target : bytes)
| ReplaceDirective (old new : bytes).
Record block := { b_name : bytes; b_commands : list command }.
(** apply_engine.go:12-17. *)
Record cursor := { c_offset : nat; c_end : nat; c_replace : bool }.
(** apply_engine.go:28-36; the key of the map, seq, is kept with the group. *)
Record group := { g_seq : nat; g_offset : nat; g_insert_end : nat; g_segments : list bytes; g_replace : bool; g_old : bytes }.
(** apply_engine.go:146-158. *)
Record state := {
  s_cursor : cursor; s_seq : nat; s_after : bool; s_groups : list group;
  s_append : bytes; s_directive : option (bytes * bytes) }.
Definition init_state : state :=
  {| s_cursor := {| c_offset := 0; c_end := 0; c_replace := false |}; s_seq := 0; s_after := false; s_groups := [];
     s_append := []; s_directive := None |}.
Definition find_group (gs : list group) (seq : nat) : option group := find (fun g => g_seq g =? seq) gs.
(** apply_engine.go:166-181 getGroup followed by an update of the group. *)
Definition with_group (s : state) (f : group -> group) : state :=
  let gs :=
    match find_group (s_groups s) (s_seq s) with
    | Some _ => map (fun g => if g_seq g =? s_seq s then f g else g) (s_groups s)
    | None =>
        s_groups s ++ [f {| g_seq := s_seq s; g_offset := c_offset (s_cursor s);
                            g_insert_end := Nat.max (c_offset (s_cursor s)) (c_end (s_cursor s));
                            g_segments := []; g_replace := false; g_old := [] |}]
    end in
  {| s_cursor := s_cursor s; s_seq := s_seq s; s_after := s_after s; s_groups := gs; s_append := s_append s; s_directive := s_directive s |}.
(** apply_engine.go:183-202. *)
Definition add_segment (text : bytes) (g : group) : group :=
  {| g_seq := g_seq g; g_offset := g_offset g; g_insert_end := g_insert_end g; g_segments := g_segments g ++ [text];
     g_replace := g_replace g; g_old := g_old g |}.
Definition add_replace (text old : bytes) (g : group) : group :=
  {| g_seq := g_seq g; g_offset := g_offset g; g_insert_end := g_insert_end g; g_segments := g_segments g ++ [text];
     g_replace := true; g_old := old |}.
Fixpoint app_last (l : list bytes) (x : bytes) : list bytes :=
  match l with
  | [] => []
  | [y] => [y ++ x]
  | y :: r => y :: app_last r x
  end.
Definition add_newline (g : group) : group :=
  {| g_seq := g_seq g; g_offset := g_offset g; g_insert_end := g_insert_end g; g_segments := app_last (g_segments g) [newline];
     g_replace := g_replace g; g_old := g_old g |}.
Definition set_after (s : state) (a : bool) : state :=
  {| s_cursor := s_cursor s; s_seq := s_seq s; s_after := a; s_groups := s_groups s; s_append := s_append s; s_directive := s_directive s |}.
Definition move (s : state) (c : cursor) : state :=
  {| s_cursor := c; s_seq := S (s_seq s); s_after := false; s_groups := s_groups s; s_append := s_append s; s_directive := s_directive s |}.
Definition set_cursor (s : state) (c : cursor) : state :=
  {| s_cursor := c; s_seq := s_seq s; s_after := s_after s; s_groups := s_groups s; s_append := s_append s; s_directive := s_directive s |}.
Definition set_append (s : state) (a : bytes) : state :=
  {| s_cursor := s_cursor s; s_seq := s_seq s; s_after := s_after s; s_groups := s_groups s; s_append := a; s_directive := s_directive s |}.
Definition set_directive (s : state) (d : bytes * bytes) : state :=
  {| s_cursor := s_cursor s; s_seq := s_seq s; s_after := s_after s; s_groups := s_groups s; s_append := s_append s; s_directive := Some d |}.

(** What go/parser and go/ast tell about a text (not modelled: the theorems hold for all
    of them). *)
Record ast := {
  a_parses : bytes -> bool;                                     (* parser.ParseFile, apply_engine.go:41 *)
  a_goto : bytes -> nat -> bytes -> option (nat * nat);         (* evalGoto, apply_engine.go:298-475: text, cursor offset, target *)
  a_node : bytes -> nat -> option (nat * nat);                  (* extent of cursorNode(), None: the file, apply_engine.go:478-514, 529-532 *)
  a_func : bytes -> bytes -> option (nat * nat) }.              (* extent of the first function of that name, apply_engine.go:563-572 *)

(** strings.Replace(s, old, new, 1). *)
Definition replace1 (s old new : bytes) : bytes :=
  match index s old with None => s | Some i => firstn i s ++ new ++ skipn (i + length old) s end.

Section Apply.
Variable A : ast.

(** apply_engine.go:523-560. *)
Definition eval_match (original : bytes) (cur : cursor) (text : bytes) (for_replace : bool) : option cursor :=
  let '(ss, se) := match a_node A original (c_offset cur) with Some r => r | None => (0, length original) end in
  let before :=
    if for_replace && (ss <? c_offset cur) && (c_offset cur <=? se)
    then last_index (slice original ss (c_offset cur)) text else None in
  match before with
  | Some idx => Some {| c_offset := ss + idx; c_end := ss + idx + length text; c_replace := true |}
  | None =>
      match index (slice original ss se) text with
      | None => None
      | Some idx => Some {| c_offset := ss + idx; c_end := ss + idx + length text; c_replace := for_replace |}
      end
  end.
(** apply_engine.go:562-578. *)
Definition eval_copy (original source target : bytes) : option bytes :=
  match a_func A original source with
  | None => None
  | Some (fs, fe) => Some (replace1 (slice original fs fe) (#"func " ++ source ++ #"(") (#"func " ++ target ++ #"("))
  end.
Definition trim_newline (s : bytes) : bytes := if has_suffix s [newline] then firstn (length s - 1) s else s.

(** One command, apply_engine.go:54-135; None: an error is returned. *)
Definition exec (original : bytes) (s : state) (c : command) : option state :=
  let nonempty (t : bytes) (k : option state) := match t with [] => None | _ => k end in
  match c with
  | Goto target =>
      option_map (fun r => move s {| c_offset := fst r; c_end := snd r; c_replace := false |}) (a_goto A original (c_offset (s_cursor s)) target)
  | Match text => option_map (move s) (eval_match original (s_cursor s) text false)
  | FindForReplace text => option_map (move s) (eval_match original (s_cursor s) text true)
  | InsertBefore text => nonempty text (Some (with_group (set_after s false) (add_segment text)))
  | InsertAfter text => nonempty text (Some (with_group (set_after s true) (add_segment text)))
  | InsertAfterLine text =>
      nonempty text (
        let c := s_cursor s in
        let c' := match nth_error original (c_end c) with
                  | Some ch => if eqc ch newline then {| c_offset := c_offset c; c_end := S (c_end c); c_replace := c_replace c |} else c
                  | None => c
                  end in
        Some (with_group (set_after (set_cursor s c') true) (add_segment text)))
  | ReplaceWith text =>
      nonempty text (
        if c_replace (s_cursor s)
        then Some (with_group (set_after s false) (add_replace text (slice original (c_offset (s_cursor s)) (c_end (s_cursor s)))))
        else None)
  | Newline => Some (with_group s add_newline)
  | CopyFunc source target => option_map (fun t => set_append s (trim_newline t)) (eval_copy original source target)
  | ReplaceDirective old new =>
      match old, new with [], _ | _, [] => None | _, _ => Some (set_directive s (old, new)) end
  end.
Fixpoint exec_all (original : bytes) (s : state) (cs : list command) : option state :=
  match cs with
  | [] => Some s
  | c :: r => match exec original s c with None => None | Some s' => exec_all original s' r end
  end.
End Apply.

(** apply_engine.go:209-230 combineSegments. *)
Definition combine (after : bool) (g : group) : bytes :=
  if g_replace g || after then concat (g_segments g) else concat (rev (g_segments g)).
(** The loop body of applyEdits, apply_engine.go:240-277. *)
Definition apply_group (name : bytes) (after : bool) (max_seq : nat) (result : bytes) (g : group) : bytes :=
  let text := combine after g in
  let wrap (old : bytes) := #"/*<begin " ++ name ++ #">*/" ++ old ++ text ++ #"/*<end " ++ name ++ #">*/" in
  if g_replace g then
    firstn (g_offset g) result ++ wrap (match g_old g with [] => [] | _ => #"/*old:" ++ g_old g ++ #"*/" end)
    ++ skipn (g_offset g + length (g_old g)) result
  else
    match text with
    | [] => result
    | _ =>
        let at_ := if negb after || (g_seq g <? max_seq) then g_offset g else g_insert_end g in
        firstn at_ result ++ wrap [] ++ skipn at_ result
    end.
(** apply_engine.go:238-278: seq from maxSeq down to 1. *)
Fixpoint apply_groups (name : bytes) (after : bool) (max_seq : nat) (gs : list group) (seq : nat) (result : bytes) : bytes :=
  match seq with
  | 0 => result
  | S n =>
      let result := match find_group gs seq with Some g => apply_group name after max_seq result g | None => result end in
      apply_groups name after max_seq gs n result
  end.
(** apply_engine.go:280-292. *)
Definition apply_append (name text result : bytes) : bytes :=
  match text with
  | [] => result
  | _ =>
      let result := if has_suffix result [newline] then result else result ++ [newline] in
      result ++ #"/*<begin " ++ name ++ #">*/" ++ text ++ #"/*<end " ++ name ++ #">*/"
  end.
Definition apply_directive (name : bytes) (d : option (bytes * bytes)) (result : bytes) : bytes :=
  match d with
  | None => result
  | Some (old, new) =>
      match index result old with
      | None => result
      | Some i =>
          firstn i result ++ (annot_begin name ++ old ++ annot_close) ++ [newline] ++ new ++ skipn (i + length old) result
      end
  end.
Definition apply_edits (name original : bytes) (s : state) : bytes :=
  apply_directive name (s_directive s)
    (apply_append name (s_append s) (apply_groups name (s_after s) (s_seq s) (s_groups s) (s_seq s) original)).
(** apply_engine.go:39-138 applyPatch. *)
Definition apply_patch (A : ast) (original : bytes) (b : block) : option bytes :=
  if a_parses A original then
    match exec_all A original init_state (b_commands b) with
    | None => None
    | Some s => Some (apply_edits (b_name b) original s)
    end
  else None.
(** apply.go:214-234 ApplyXgoPatchContent after parsing; None: an error is returned. *)
Fixpoint apply_blocks (A : ast) (source : bytes) (bs : list block) : option bytes :=
  match bs with
  | [] => Some source
  | b :: r =>
      match (match b_name b with [] => Some source | _ => clear_patch source (b_name b) end) with
      | None => None
      | Some c => match apply_patch A c b with None => None | Some c' => apply_blocks A c' r end
      end
  end.
