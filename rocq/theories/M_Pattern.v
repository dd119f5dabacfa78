(** * Glob patterns over slash separated paths (support/pattern/pattern.go).
    A Go string is the list of its code points, which is []rune(s) of a string that is
    valid UTF-8 (simplification: byte sequences that are not valid UTF-8 are not modelled).
    Splitting at the byte '/' and decoding commute for those. *)
From Coq Require Import List Arith Bool Lia.
Import ListNotations.

Definition text := list nat.
Definition slash : nat := 47.
Definition star : nat := 42.

(** element, pattern.go:39-42: kind_star, or kind_plain_str with its runes. *)
Inductive element := Star | Plain (runes : text).
(** expr, pattern.go:86-89. *)
Record expr := { double_star : bool; elements : list element }.

Fixpoint eqt (a b : text) : bool :=
  match a, b with
  | [], [] => true
  | x :: a, y :: b => (x =? y) && eqt a b
  | _, _ => false
  end.

(** The loop of compileExpr, pattern.go:102-118.  [cur] is runes[lastIdx:i] reversed and
    [prev] tells that i > 0 and runes[i-1] is a star. *)
Fixpoint compile_loop (s : text) (cur : text) (prev : bool) : list element :=
  match s with
  | [] => match cur with [] => [] | _ => [Plain (rev cur)] end
  | ch :: r =>
      if negb (ch =? star) then compile_loop r (ch :: cur) false
      else
        (match cur with [] => [] | _ => [Plain (rev cur)] end) ++
        (if prev then [] else [Star]) ++ compile_loop r [] true
  end.
(** compileExpr, pattern.go:91-120. *)
Definition compile_expr (s : text) : expr :=
  match s with
  | [] => {| double_star := false; elements := [] |}
  | _ => if eqt s [star; star] then {| double_star := true; elements := [] |}
         else {| double_star := false; elements := compile_loop s [] false |}
  end.

(** strings.Split(path, "/"). *)
Fixpoint split_slash (s : text) : list text :=
  match s with
  | [] => [[]]
  | x :: r =>
      if x =? slash then [] :: split_slash r
      else match split_slash r with [] => [[x]] | h :: t => (x :: h) :: t end
  end.
(** splitPath, pattern.go:122-132. *)
Definition split_path (path : text) : list text :=
  filter (fun seg => match seg with [] => false | _ => true end) (split_slash path).

(** CompilePattern, pattern.go:22-30. *)
Definition compile_pattern (s : text) : list expr := map compile_expr (split_path s).

(** The comparison loop of kind_plain_str, pattern.go:198-202: runes[0:n] against the
    element's runes. *)
Fixpoint starts_with (runes part : text) {struct part} : bool :=
  match part, runes with
  | [], _ => true
  | p :: part, r :: runes => (r =? p) && starts_with runes part
  | _ :: _, [] => false
  end.

(** expr.matchRunesFrom, pattern.go:173-207; [es] is c.elements[i:].  A plain element
    returns without looking at the elements after it. *)
Fixpoint match_runes (es : list element) (prefix : bool) (runes : text) : bool :=
  match es with
  | [] => match runes with [] => true | _ => false end
  | Star :: es' =>
      (fix any (runes : text) : bool :=
         if match_runes es' prefix runes then true
         else match runes with [] => false | _ :: r => any r end) runes
  | Plain p :: _ =>
      (if negb prefix then length p =? length runes else length p <=? length runes)
      && starts_with runes p
  end.

(** expr.matchEmpty, pattern.go:209-217. *)
Definition match_empty (c : expr) : bool :=
  forallb (fun p => match p with Star => true | Plain _ => false end) (elements c).

(** doMatch, pattern.go:144-166. *)
Fixpoint do_match (exprs : list expr) (segments : list text) (prefix : bool) : bool :=
  match exprs with
  | [] => if prefix then true else match segments with [] => true | _ => false end
  | e :: rest =>
      if double_star e then
        (fix any (segments : list text) : bool :=
           match segments with
           | [] => do_match rest [] prefix
           | _ :: r => if any r then true else do_match rest segments prefix
           end) segments
      else match segments with
           | [] => match_empty e
           | s :: r => if negb (match_runes (elements e) prefix s) then false else do_match rest r prefix
           end
  end.

(** Pattern.Match and Pattern.MatchPrefix, pattern.go:46-53. *)
Definition matches (pattern path : text) : bool := do_match (compile_pattern pattern) (split_path path) false.
Definition matches_prefix (pattern path : text) : bool := do_match (compile_pattern pattern) (split_path path) true.
(** Patterns.MatchAny and MatchAnyPrefix, pattern.go:59-72 with 77-84. *)
Definition matches_any (patterns : list text) (path : text) : bool := existsb (fun p => matches p path) patterns.
Definition matches_any_prefix (patterns : list text) (path : text) : bool := existsb (fun p => matches_prefix p path) patterns.
