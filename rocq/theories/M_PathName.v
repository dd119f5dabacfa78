(** * Directories named after other directories: the instrumented GOROOT, its cache, traces and
    coverage (cmd/xgo/pathsum/path.go, support/fileutil/path.go,
    cmd/xgo/coverage/cov_control/cov_control.go) *)
From Coq Require Import Ascii String List Arith Bool Lia.
From Verif Require Import M_Str M_Version.
Import ListNotations.
Open Scope nat_scope.
Open Scope list_scope.

Definition code (c : ascii) : nat := nat_of_ascii c.
Definition in_range (lo hi : ascii) (c : ascii) : bool := (code lo <=? code c) && (code c <=? code hi).
(** support/fileutil/path.go:9-27, on the bytes of valid UTF-8, where the bytes of every rune from
    128 on are from 128 on (for other text Go first replaces each bad byte) *)
Definition kept (c : ascii) : bool :=
  negb (code c <? 128) || eqc c "."%char || eqc c "_"%char || eqc c "-"%char || in_range "0" "9" c || in_range "a" "z" c || in_range "A" "Z" c.
Fixpoint CleanSpecial (path : bytes) : bytes :=
  match path with
  | [] => []
  | c :: r => if eqc c " "%char then "_"%char :: CleanSpecial r else if kept c then c :: CleanSpecial r else CleanSpecial r
  end.
(** pathsum/path.go:33-66; [left]: how many segments may still be appended (maxSeg, 8 in every call) *)
Fixpoint short_segs (left : nat) (segs : list bytes) : list bytes :=
  match segs with
  | [] => []
  | seg :: r =>
      match firstn 2 (CleanSpecial seg) with
      | [] => short_segs left r
      | s => match left with 0 | 1 => [s] | S n => s :: short_segs n r end
      end
  end.
Definition shortPath (path : bytes) : bytes := join #"_" (short_segs 8 (split "/"%char path)).
Section Sum.
  (** md5 in hexadecimal (path.go:24-26): 32 digits *)
  Variable md5 : bytes -> bytes.
  (** pathsum/path.go:23-31 *)
  Definition getIdentSum (s : bytes) : bytes := let sum := md5 s in if length sum <? 8 then repeat "0"%char (8 - length sum) ++ sum else firstn 8 sum.
  (** pathsum/path.go:14-21; [path] is absolute (filepath.Abs) *)
  Definition PathSum (prefix path : bytes) : bytes := prefix ++ shortPath path ++ #"_" ++ getIdentSum path.
End Sum.

(** ** Coverage *)
(** filepath.Join of an absolute directory and further elements: Clean on components *)
Fixpoint clean_onto (at_ : list bytes) (l : list bytes) : list bytes :=
  match l with
  | [] => at_
  | c :: r => if eqs c [] || eqs c #"." then clean_onto at_ r
              else if eqs c #".." then clean_onto (removelast at_) r
              else clean_onto (at_ ++ [c]) r
  end.
(** cov_control.go:139-145; directories are lists of components. filepath.Join(list...) is cleaned as a
    relative path before it is joined, where a ".." that nothing precedes is kept, which has the same
    effect. *)
Definition mapCovDir (tmpDir absDir : list bytes) : list bytes := clean_onto tmpDir (#"xgo" :: #"coverage" :: map CleanSpecial absDir).
(** cov_control.go:20-51, 55-120: the files of a controller: the profile, if it exists, and what
    result.json holds; the profile is a summary or one that cannot be loaded *)
Section Control.
  Variables (Detail Profile : Type).
  Variable zero : Detail.                          (* coverage.Detail{} *)
  Variable load : Profile -> option (option Detail).   (* LoadAll and the summary of "": None, an error; Some None, no summary *)
  Inductive stored := Encoded (d : Detail) | Null | Garbled.  (* what result.json holds: Null for a nil detail *)
  Record files := { profile : option Profile; result : option stored }.
  (** cov_control.go:55-71 *)
  Definition GetCoverage (f : files) : option Detail := match result f with Some (Encoded d) => Some d | Some Null => Some zero | Some Garbled | None => None end.
  (** cov_control.go:77-107; None: an error *)
  Definition Refresh (f : files) : option files :=
    match profile f with
    | None => Some {| profile := None; result := Some (Encoded zero) |}
    | Some p => match load p with
                | None => None
                | Some (Some d) => Some {| profile := Some p; result := Some (Encoded d) |}
                | Some None => Some {| profile := Some p; result := Some Null |}
                end
    end.
  (** cov_control.go:109-118 *)
  Definition Clear (f : files) : files := match profile f with None => f | Some _ => {| profile := None; result := result f |} end.
End Control.
