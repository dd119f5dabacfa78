(** * `xgo tool` (cmd/xgo/tool.go), on unix *)
From Coq Require Import Ascii String List Arith Bool Lia.
From Verif Require Import M_Str M_PathName M_Shadow.
Import ListNotations.
Open Scope nat_scope.
Open Scope list_scope.

(** ** path/filepath, for relative paths too *)
Fixpoint rel_onto (at_ l : list bytes) : list bytes :=
  match l with
  | [] => at_
  | c :: r => if eqs c [] || eqs c #"." then rel_onto at_ r
              else if eqs c #".." then if eqs (last at_ #"..") #".." then rel_onto (at_ ++ [c]) r else rel_onto (removelast at_) r
              else rel_onto (at_ ++ [c]) r
  end.
Definition Clean (p : bytes) : bytes := if IsAbs p then spell (comps p) else match rel_onto [] (split slash p) with [] => #"." | cs => join [slash] cs end.
(** filepath.Join of two elements that are not empty *)
Definition Join (a b : bytes) : bytes := Clean (a ++ [slash] ++ b).
(** filepath.Dir: Clean of the path up to its last slash *)
Definition DirOf (p : bytes) : bytes := match cut_last slash p with Some (a, _) => Clean (a ++ [slash]) | None => #"." end.
(** filepath.Base *)
Fixpoint trim_slashes (r : bytes) : bytes := match r with c :: r' => if eqc c slash then trim_slashes r' else r | [] => [] end.
Definition Base (p : bytes) : bytes :=
  match p with
  | [] => #"."
  | _ => match rev (trim_slashes (rev p)) with
         | [] => #"/"
         | q => match cut_last slash q with Some (_, b) => b | None => q end
         end
  end.

(** ** The command *)
Inductive kind := AFile | ADir | Missing | Unreadable.  (* os.Stat; Unreadable: any error but ErrNotExist *)
(** [Program path args]: that program is started *)
Inductive action := Help | ListTools | Trace (args : list bytes) | Coverage (args : list bytes) | TestExplorer (args : list bytes) | Program (path : bytes) (args : list bytes) | Unknown.
Section Tool.
  Variable stat : bytes -> kind.
  Variable home : option bytes.             (* os.UserHomeDir *)
  Variable look : bytes -> option bytes.    (* exec.LookPath of a name without a slash *)
  (** exec.Command: a name without a slash is looked up in PATH; not found: an error *)
  Definition command (path : bytes) (args : list bytes) : action :=
    if containsc slash path then Program path args else match look path with Some p => Program p args | None => Unknown end.
  (** tool.go:101-139 *)
  Definition tryHandleTool (argv0 tool : bytes) (args : list bytes) : action :=
    if negb (eqs (Base tool) tool) then Unknown
    else if eqs (Base tool) (Base argv0) then Unknown
    else let at_home := match home with
                        | None => Unknown
                        | Some h => let p := Join h (#".xgo/bin/" ++ tool) in match stat p with AFile => command p args | _ => Unknown end
                        end in
         let p := Join (DirOf argv0) tool in
         match stat p with AFile => command p args | Unreadable => Unknown | ADir | Missing => at_home end.
  (** tool.go:48-99; on unix there is one candidate *)
  Definition handleTool (argv0 : bytes) (args : list bytes) : action :=
    match args with
    | [] => Help
    | t :: r => if eqs t #"help" || eqs t #"-h" || eqs t #"--help" then Help
                else if eqs t #"list" then ListTools
                else if eqs t #"trace" then Trace r
                else if eqs t #"coverage" then Coverage r
                else if eqs t #"test-explorer" then TestExplorer r
                else tryHandleTool argv0 t r
    end.
End Tool.
