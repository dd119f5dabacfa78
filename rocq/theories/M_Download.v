(** * Installing a Go SDK: the archive, the list of versions, the installation
    (support/downloadgo/*.go, cmd/xgo/upgrade/extract.go) *)
From Coq Require Import Ascii String List Arith Bool Lia.
From Verif Require Import M_Str M_Coverage.
Import ListNotations.
Open Scope nat_scope.
Open Scope list_scope.

(** ** path/filepath on unix: Clean, Join, Rel (Go's standard library, used by
    support/downloadgo/archive.go:51-60 and cmd/xgo/upgrade/extract.go:54,58).
    A cleaned path is kept as its components and whether it begins with "/". *)
Definition slash : ascii := "/"%char.
Definition rooted (p : bytes) : bool := has_prefix p [slash].
Definition dot : bytes := #".".
Definition dotdot : bytes := #"..".

(** Clean: one component after the other; [acc] is the output so far, last component
    first. An empty component and "." are skipped; ".." removes the last component of the
    output, unless there is none or it is itself a kept "..". *)
Definition clean_step (root : bool) (acc : list bytes) (c : bytes) : list bytes :=
  if eqs c [] || eqs c dot then acc
  else if eqs c dotdot then
    match acc with
    | [] => if root then [] else [dotdot]
    | x :: r => if eqs x dotdot then dotdot :: acc else r
    end
  else c :: acc.
Definition clean_comps (root : bool) (l : list bytes) : list bytes := rev (fold_left (clean_step root) l []).
Record path := { p_root : bool; p_comps : list bytes }.
Definition clean (s : bytes) : path := {| p_root := rooted s; p_comps := clean_comps (rooted s) (split slash s) |}.
(** the text of a cleaned path; "." if nothing is left. *)
Definition text (p : path) : bytes :=
  if p_root p then slash :: join [slash] (p_comps p)
  else match p_comps p with [] => dot | l => join [slash] l end.
Definition Clean (s : bytes) : bytes := text (clean s).
(** Join of two elements: the empty ones are left out, then Clean. *)
Definition Join (a b : bytes) : bytes :=
  match a, b with
  | [], [] => []
  | [], _ => Clean b
  | _, _ => Clean (a ++ slash :: b)
  end.

(** Rel: both cleaned; equal texts give "."; one rooted and the other not is an error;
    then the common components are dropped. In a relative target the text "." counts as a
    component, in the base it does not. *)
Fixpoint rel_comps (b t : list bytes) : option (list bytes) :=
  match b, t with
  | [], _ => Some t
  | x :: b', y :: t' =>
      if eqs x y then rel_comps b' t'
      else if eqs x dotdot then None
      else Some (map (fun _ => dotdot) b ++ t)
  | _ :: _, [] => Some (map (fun _ => dotdot) b)
  end.
Definition targ_comps (p : path) : list bytes :=
  if p_root p then p_comps p else match p_comps p with [] => [dot] | l => l end.
Definition Rel (base targ : bytes) : option bytes :=
  let b := clean base in
  let t := clean targ in
  if eqs (text t) (text b) then Some dot
  else if negb (Bool.eqb (p_root b) (p_root t)) then None
  else option_map (join [slash]) (rel_comps (p_comps b) (targ_comps t)).

(** ** Unpacking (archive.go:35-95). What is done to the file system. *)
Inductive effect := MkdirAll (p : bytes) | WriteFile (p : bytes).
Record entry := { e_name : bytes; e_isdir : bool; e_ok : bool (** it can be read and written *) }.
(** archive.go:51-62: where an entry goes; None is the error. *)
Definition place (target name : bytes) : option bytes :=
  let full := Join target (Clean name) in
  match Rel target full with
  | None => None
  | Some rel => if eqs rel dotdot || has_prefix rel (dotdot ++ [slash]) then None else Some full
  end.
(** archive.go:64-93; simplification: filepath.Dir of a file is created too, see [dir_of]
    in the specification; the error of reading or writing is one flag. *)
Definition unzipFile (target : bytes) (f : entry) : list effect * bool :=
  match place target (e_name f) with
  | None => ([], false)
  | Some full => if e_isdir f then ([MkdirAll full], e_ok f) else ([WriteFile full], e_ok f)
  end.
(** archive.go:42-48 *)
Fixpoint unzip (target : bytes) (l : list entry) : list effect * bool :=
  match l with
  | [] => ([], true)
  | f :: r =>
      let (e, ok) := unzipFile target f in
      if ok then let (e', ok') := unzip target r in (e ++ e', ok') else (e, false)
  end.

(** cmd/xgo/upgrade/extract.go:44-70: the name of the header is joined as it is. *)
Fixpoint ExtractTarGz (target : bytes) (l : list entry) : list effect * bool :=
  match l with
  | [] => ([], true)
  | f :: r =>
      let e := if e_isdir f then [MkdirAll (Join target (e_name f))] else [WriteFile (Join target (e_name f))] in
      if e_ok f then let (e', ok') := ExtractTarGz target r in (e ++ e', ok') else (e, false)
  end.

(** ** Versions (downloadgo.go:34-50, list.go:50-80) *)
Definition go_ : bytes := #"go".
Definition DirName (v : bytes) : bytes := if has_prefix v go_ then v else go_ ++ v.
Definition nakedVersion (v : bytes) : bytes := if has_prefix v go_ then skipn 2 v else v.
Definition Target (dir v : bytes) : bytes := Join dir (DirName v).
Definition archive_suffix (goos : bytes) : bytes := if eqs goos #"windows" then #".zip" else #".tar.gz".
(** download.go:82 *)
Definition baseName (v goos goarch : bytes) : bytes :=
  #"go" ++ nakedVersion v ++ #"." ++ goos ++ #"-" ++ goarch ++ archive_suffix goos.

Definition quote : bytes := [ascii_of_nat 34].
Definition idGo : bytes := #"id=" ++ quote ++ #"go".
Definition newline : ascii := ascii_of_nat 10.
(** list.go:55-77 *)
Definition line_version (line : bytes) : option bytes :=
  let line := trim_space line in
  if negb (has_prefix line #"<div ") then None
  else match index line idGo with
  | None => None
  | Some idx =>
      let tail := skipn (idx + length idGo) line in
      match index tail quote with
      | None => None
      | Some q => match firstn q tail with [] => None | v => Some v end
      end
  end.
(** list.go:50-80 *)
Definition parseDownloadVersions (html : bytes) : list bytes :=
  flat_map (fun l => match line_version l with Some v => [v] | None => [] end) (split newline html).

(** ** Download (download.go:14-107): any number of calls, in one process or several, for
    the same directory and version and possibly for different platforms. A file is a number
    [n] of pieces; what is in the file that is being fetched is the set of pieces that are
    there. curl truncates the file when it opens it and then writes its pieces; tar and
    unzip fail on an archive with a missing piece (trusted: the checksums of gzip and zip).
    A call can fail at every step that can fail, and be killed at any time. *)
Definition platform := nat.
Record tree := { t_platform : platform; t_pieces : list nat }.
Inductive place_state := Absent | RegularFile | Dir (t : tree).
Inductive pc :=
| PStat                         (* download.go:23 *)
| PList                         (* download.go:60-77 *)
| PGetOpen                      (* download.go:89-92: curl begins *)
| PGet (i : nat)                (* curl has written i pieces *)
| PExtract (i : nat) (tmp : list nat)  (* download.go:98-104: i pieces unpacked in the temporary directory *)
| PRename (tmp : list nat)      (* download.go:105 *)
| PReturned (ok : bool)
| PKilled.
Record proc := { pr_platform : platform; pr_pc : pc }.
Record state := { s_dest : place_state; s_file : platform -> list nat; s_procs : list proc }.
Definition set_pc (s : state) (k : nat) (p : proc) (c : pc) : state :=
  {| s_dest := s_dest s; s_file := s_file s;
     s_procs := firstn k (s_procs s) ++ {| pr_platform := pr_platform p; pr_pc := c |} :: skipn (S k) (s_procs s) |}.
Definition set_file (s : state) (p : platform) (l : list nat) : state :=
  {| s_dest := s_dest s; s_file := fun q => if q =? p then l else s_file s q; s_procs := s_procs s |}.
Definition set_dest (s : state) (d : place_state) : state :=
  {| s_dest := d; s_file := s_file s; s_procs := s_procs s |}.
(** the answer of the list of versions: it cannot be had, or it is had and the version is
    in it or not (download.go:61-77) *)
Inductive listing := Unavailable | Listed (found : bool).
Section Run.
  Variable n : nat.
  Variable answer : listing.
  (** one step of call [k], which is at [p]. *)
  Inductive act (s : state) (k : nat) (p : proc) : pc -> state -> Prop :=
  | a_installed t : s_dest s = Dir t -> act s k p PStat (set_pc s k p (PReturned true))
  | a_not_dir : s_dest s = RegularFile -> act s k p PStat (set_pc s k p (PReturned false))
  | a_absent : s_dest s = Absent -> act s k p PStat (set_pc s k p PList)
  | a_unlisted : answer = Listed false -> act s k p PList (set_pc s k p (PReturned false))
  | a_listed : answer <> Listed false -> act s k p PList (set_pc s k p PGetOpen)
  | a_open : act s k p PGetOpen (set_pc (set_file s (pr_platform p) []) k p (PGet 0))
  | a_write i : i < n -> act s k p (PGet i) (set_pc (set_file s (pr_platform p) (i :: s_file s (pr_platform p))) k p (PGet (S i)))
  | a_written i : n <= i -> act s k p (PGet i) (set_pc s k p (PExtract 0 []))
  | a_unpack i tmp : i < n -> In i (s_file s (pr_platform p)) -> act s k p (PExtract i tmp) (set_pc s k p (PExtract (S i) (tmp ++ [i])))
  | a_unpacked i tmp : n <= i -> act s k p (PExtract i tmp) (set_pc s k p (PRename tmp))
  | a_rename tmp : s_dest s = Absent ->
      act s k p (PRename tmp) (set_pc (set_dest s (Dir {| t_platform := pr_platform p; t_pieces := tmp |})) k p (PReturned true))
  | a_rename_taken tmp : s_dest s <> Absent -> act s k p (PRename tmp) (set_pc s k p (PReturned false))
  | a_fail c : (c = PGetOpen \/ (exists i, c = PGet i) \/ (exists i tmp, c = PExtract i tmp) \/ exists tmp, c = PRename tmp) ->
      act s k p c (set_pc s k p (PReturned false))
  | a_killed c : (forall ok, c <> PReturned ok) -> c <> PKilled -> act s k p c (set_pc s k p PKilled).
  Inductive step (s : state) : state -> Prop :=
  | step_act k p t : nth_error (s_procs s) k = Some p -> act s k p (pr_pc p) t -> step s t
  | step_call plat : step s {| s_dest := s_dest s; s_file := s_file s; s_procs := s_procs s ++ [{| pr_platform := plat; pr_pc := PStat |}] |}.
  Inductive run (s : state) : state -> Prop :=
  | run_nil : run s s
  | run_cons t u : step s t -> run t u -> run s u.
End Run.
