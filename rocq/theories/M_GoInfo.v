(** * The version of the toolchain, the module of a directory, the files of packages
    (support/goinfo/{goinfo,find,list}.go) *)
From Coq Require Import Ascii String List Arith Bool ZArith Lia.
From Verif Require Import M_Str M_Version M_Coverage M_Download.
Import ListNotations.
Open Scope nat_scope.
Open Scope list_scope.

(** ** goinfo.go *)
Record goversion := { v_major : Z; v_minor : Z; v_patch : Z; v_os : bytes; v_arch : bytes }.
(** goinfo.go:19-21 *)
Definition String (v : goversion) : bytes :=
  #"go version go" ++ format_int (v_major v) ++ #"." ++ format_int (v_minor v) ++ #"." ++ format_int (v_patch v) ++ #" " ++ v_os v ++ #"/" ++ v_arch v.
Fixpoint take_digits (s : bytes) : bytes :=
  match s with c :: r => if is_digit c then c :: take_digits r else [] | [] => [] end.
(** goinfo.go:83-90: the minor number ends where its digits end, if there are any. *)
Definition minor_text (num : bytes) : bytes := match take_digits num with [] => num | d => d end.
(** goinfo.go:91-94; a part that is not there is 0 *)
Definition part (l : list bytes) (i : nat) : option Z :=
  match nth_error l i with
  | None => Some 0%Z
  | Some num => parse_int (if i =? 1 then minor_text num else num)
  end.
(** goinfo.go:76-106 *)
Definition ParseGoVersionNumber (version : bytes) : option goversion :=
  let verList := split "."%char version in
  match part verList 0, part verList 1, part verList 2 with
  | Some a, Some b, Some c => Some {| v_major := a; v_minor := b; v_patch := c; v_os := []; v_arch := [] |}
  | _, _, _ => None
  end.
(** goinfo.go:42-72 *)
Definition ParseGoVersion (s : bytes) : option goversion :=
  if negb (has_prefix s #"go version ") then None
  else let s := skipn (length #"go version ") s in
  if negb (has_prefix s #"go") then None
  else let s := skipn 2 s in
  match index s #" " with
  | None => None
  | Some spaceIdx =>
      let osArch := skipn (spaceIdx + 1) s in
      match ParseGoVersionNumber (firstn spaceIdx s) with
      | None => None
      | Some res =>
          match index osArch #"/" with
          | None => None
          | Some slashIdx => Some {| v_major := v_major res; v_minor := v_minor res; v_patch := v_patch res; v_os := firstn slashIdx osArch; v_arch := skipn (slashIdx + 1) osArch |}
          end
      end
  end.
(** support/testconfig/config.go:264-279; a.Major - b.Major, as its sign decides *)
Definition CompareGoVersion (a b : goversion) (ignorePatch : bool) : Z :=
  if negb (v_major a =? v_major b)%Z then (v_major a - v_major b)%Z
  else if negb (v_minor a =? v_minor b)%Z then (v_minor a - v_minor b)%Z
  else if ignorePatch then 0%Z else (v_patch a - v_patch b)%Z.
(** config.go:223-261: true is no error; [goVersionStr] is what go version says, None if it
    cannot be run. *)
Definition trim_go (s : bytes) : bytes := if has_prefix s #"go" then skipn 2 s else s.
Definition ValidateGoConstraint (gmin gmax : bytes) (goVersionStr : option bytes) : bool :=
  if eqs gmin [] && eqs gmax [] then true
  else match goVersionStr with
  | None => false
  | Some out =>
      match ParseGoVersion out with
      | None => false
      | Some v =>
          negb (negb (eqs gmin []) && match ParseGoVersionNumber (trim_go gmin) with Some m => (CompareGoVersion v m true <? 0)%Z | None => false end)
          && negb (negb (eqs gmax []) && match ParseGoVersionNumber (trim_go gmax) with Some m => (0 <? CompareGoVersion v m true)%Z | None => false end)
      end
  end.

(** ** find.go:22-50: a directory is the list of its components from the root; [stat] tells
    what go.mod is in a directory. [rdir] is the directory, last component first. *)
Inductive mod_stat := NotThere | ADir | AFile | StatError.
Section Find.
  Variable stat : list bytes -> mod_stat.
  Fixpoint find_up (rdir : list bytes) (subPath : list bytes) : option (list bytes * list bytes) :=
    let up := match rdir with [] => None | base :: parent => find_up parent (subPath ++ [base]) end in
    match stat (rev rdir) with
    | AFile => Some (subPath, rev rdir)
    | StatError => None
    | NotThere | ADir => up
    end.
  Definition FindGoModDirSubPath (dir : list bytes) : option (list bytes * list bytes) := find_up (rev dir) [].
End Find.
(** cmd/xgo/test-explorer/main.go:594-601 scanTests: the directory that is scanned; joining
    is appending components. *)
Definition walkDir (projectRoot subPath : list bytes) : list bytes := projectRoot ++ subPath.

(** ** list.go:110-177 lisFiles *)
(** the files of a package: GoFiles, TestGoFiles and, which are not asked for, XTestGoFiles *)
Record package := { g_dir : bytes; g_files : list bytes; g_tests : list bytes; g_xtests : list bytes }.
Definition abs_file (p : package) (f : bytes) : bytes := if rooted f then f else Join (g_dir p) f.
Definition rel_file (absDir f : bytes) : list bytes :=
  if negb (has_prefix f absDir) then []
  else let r := skipn (length absDir) f in
       match (if has_prefix r [slash] then skipn 1 r else r) with [] => [] | r => [r] end.
Definition lisFiles (absDir : bytes) (relativeOnly : bool) (pkgs : list package) : list bytes :=
  flat_map (fun p => flat_map (fun f =>
      if negb (has_suffix f #".go") then []
      else if relativeOnly then rel_file absDir (abs_file p f) else [abs_file p f]) (g_files p ++ g_tests p)) pkgs.
