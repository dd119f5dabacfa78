(** * The go command that `xgo shadow` installs (cmd/xgo/shadow/*.go, cmd/xgo/shadow.go:22-58), on unix *)
From Coq Require Import Ascii String List Arith Bool Lia.
From Verif Require Import M_Str M_PathName.
Import ListNotations.
Open Scope nat_scope.
Open Scope list_scope.

(** ** Paths: filepath.IsAbs, Split and Clean of an absolute path; components of a path, and its clean spelling *)
Definition slash : ascii := "/"%char.
Definition IsAbs (p : bytes) : bool := has_prefix p #"/".
Definition comps (p : bytes) : list bytes := clean_onto [] (split slash p).
Definition spell (cs : list bytes) : bytes := slash :: join [slash] cs.
(** filepath.Dir of an absolute path *)
Definition Dir (p : bytes) : bytes := match cut_last slash p with Some (a, _) => spell (comps a) | None => #"." end.
(** filepath.SplitList, and the strings.Join of prepare_unix.go:23 *)
Definition colon : ascii := ":"%char.
Definition SplitList (p : bytes) : list bytes := match p with [] => [] | _ => split colon p end.
Definition JoinList (l : list bytes) : bytes := join [colon] l.

(** ** Processes *)
Definition env := bytes -> option bytes.
Definition getenv (e : env) (k : bytes) : bytes := match e k with Some v => v | None => [] end.
(** appending k=v to an environment: the last value counts (os/exec dedupEnv) *)
Definition addenv (e : env) (k v : bytes) : env := fun k' => if eqs k' k then Some v else e k'.
Record process := { argv0 : bytes; args : list bytes; environ : env }.
Inductive program := TheShadow | TheGo | TheXgo | Another.
Inductive input := NoInput | SameInput.
(** [Fails]: a message and status 1; [Runs]: what is run, with which standard input *)
Inductive outcome := Fails | Runs (path : bytes) (child : process) (stdin : input).
Section Files.
  (** the executable files by absolute path (no links), and whether an entry of PATH that is relative has an
      executable of a name *)
  Variable file : list bytes -> option program.
  Variable relative : bytes -> bytes -> bool.
  (** exec.LookPath of a name without a slash; None: not found, or found in a relative directory (ErrDot) *)
  Fixpoint look (name : bytes) (l : list bytes) : option bytes :=
    match l with
    | [] => None
    | d :: r => if IsAbs d
                then match file (comps d ++ [name]) with Some _ => Some (spell (comps d ++ [name])) | None => look name r end
                else if relative d name then None else look name r
    end.
  Definition LookPath (name path : bytes) : option bytes := look name (SplitList path).
  (** exclude_path.go:7-22, prepare_unix.go:15-27; None: error *)
  Definition exclude (dir path : bytes) : option bytes :=
    let l := SplitList path in
    let l' := filter (fun d => negb (eqs d dir)) l in
    if length l' =? length l then None else Some (JoinList l').
  (** shadow.go:81-89: PATH is put back afterwards *)
  Definition GetRealGoPathExcludeDir (dir path : bytes) : option bytes :=
    match exclude dir path with None => None | Some path' => LookPath #"go" path' end.
  (** shadow.go:61-79; exeSuffix is empty *)
  Definition GetRealGoPath (curGo path : bytes) : option bytes :=
    match (if eqs curGo #"go" then LookPath curGo path else if negb (IsAbs curGo) then None else Some curGo) with
    | None => None
    | Some absGo => GetRealGoPathExcludeDir (Dir absGo) path
    end.
  (** shadow.go:21-59: exec.Command looks a name without a slash up in PATH; Stdin is not set (52-59) *)
  Definition main (p : process) : outcome :=
    let path := getenv (environ p) #"PATH" in
    match GetRealGoPath (argv0 p) path with
    | None => Fails
    | Some realGo =>
        let subCmd := hd [] (args p) in
        if negb (eqs (getenv (environ p) #"XGO_SHADOW_BYPASS") #"true") && (eqs subCmd #"build" || eqs subCmd #"run" || eqs subCmd #"test")
        then match LookPath #"xgo" path with
             | Some xgo => Runs xgo {| argv0 := #"xgo"; args := args p; environ := addenv (environ p) #"XGO_REAL_GO_BINARY" realGo |} NoInput
             | None => Fails
             end
        else Runs realGo {| argv0 := realGo; args := args p; environ := environ p |} NoInput
    end.
End Files.
(** How a process ends, and the status of the shadow then (shadow.go:42-50): ExitCode is -1 for one that was killed *)
Inductive ending := Exited (n : nat) | Killed.
Definition status (e : ending) : nat := match e with Exited n => n | Killed => 255 end.
(** cmd/xgo/main.go:1243-1248, 1260: the go command xgo runs *)
Definition getNakedGo (e : env) : bytes := match getenv e #"XGO_REAL_GO_BINARY" with [] => #"go" | g => g end.
