(** * Model of finding the module of a directory (support/goinfo/{mod,find,pkg}.go,
    cmd/xgo/main.go:281-290, cmd/xgo/trace.go:36-56) *)
From Coq Require Import Ascii String List Arith Bool.
From Verif Require Import M_Str.
Import ListNotations.
Open Scope nat_scope.
Open Scope list_scope.

(** An absolute directory: its names from the root on (POSIX). *)
Definition dirpath := list bytes.
(** os.Stat of a file in a directory. *)
Inductive stat := Missing | IsDir | IsFile | StatError.
Inductive found := Found (root : dirpath) (subs : list bytes) | NotFound | Failed.
(** mod.go:65-106 findGoMod, on the names of the directory from last to first.  The root
    itself is not looked at (87-91). *)
Fixpoint find_go_mod (fs : dirpath -> stat) (up : list bytes) (subs : list bytes) : found :=
  match up with
  | [] => NotFound
  | x :: up' =>
      match fs (rev up) with
      | IsFile => Found (rev up) (rev subs)
      | StatError => Failed
      | Missing | IsDir => find_go_mod fs up' (subs ++ [x])
      end
  end.
(** find.go:21-51 FindGoModDirSubPath. *)
Fixpoint find_mod_dir (fs : dirpath -> stat) (up : list bytes) (subs : list bytes) : found :=
  match fs (rev up) with
  | IsFile => Found (rev up) subs
  | StatError => Failed
  | Missing | IsDir => match up with [] => NotFound | x :: up' => find_mod_dir fs up' (subs ++ [x]) end
  end.

(** mod.go:118-144 parseModPath.  The loop over s is one over the lines of the file: "module " holds
    no line break.  TrimSpace for ASCII. *)
Definition is_space (c : ascii) : bool := let n := nat_of_ascii c in (n =? 32) || ((9 <=? n) && (n <=? 13)).
Fixpoint trim_left_by (p : ascii -> bool) (s : bytes) : bytes := match s with c :: r => if p c then trim_left_by p r else s | [] => [] end.
Definition trim_space (s : bytes) : bytes := rev (trim_left_by is_space (rev (trim_left_by is_space s))).
Definition is_blank (c : ascii) : bool := eqc c " "%char || eqc c "009"%char.
Definition newline : ascii := "010"%char.
Fixpoint mod_lines (ls : list bytes) : bytes :=
  match ls with
  | [] => []
  | l :: rest =>
      let s := trim_left_by is_blank l in
      if has_prefix s #"module " then
        let m := trim_space (skipn 7 s) in
        match index m #"//" with Some i => trim_space (firstn i m) | None => m end
      else mod_lines rest
  end.
Definition parse_mod_path (content : bytes) : bytes := mod_lines (split newline content).

Inductive resolved := Resolved (subs : list bytes) (module : bytes) | NoGoMod | NoModule | ResolveFailed.
(** mod.go:17-33 ResolveMainModule; [content d] is the go.mod of d. *)
Definition resolve_main_module (fs : dirpath -> stat) (content : dirpath -> bytes) (dir : dirpath) : resolved :=
  match find_go_mod fs (rev dir) [] with
  | NotFound => NoGoMod
  | Failed => ResolveFailed
  | Found root subs => match parse_mod_path (content root) with [] => NoModule | m => Resolved subs m end
  end.
(** mod.go:35-44 ResolveModulePkgPath. *)
Definition resolve_pkg_path (fs : dirpath -> stat) (content : dirpath -> bytes) (dir : dirpath) : option (bytes * bytes) :=
  match resolve_main_module fs content dir with
  | Resolved [] m => Some (m, m)
  | Resolved subs m => Some (m, m ++ #"/" ++ join #"/" subs)
  | _ => None
  end.
(** pkg.go:3-22 PkgWithinModule. *)
Definition pkg_within_module (pkg module : bytes) : option bytes :=
  if length pkg <? length module then None
  else if negb (has_prefix pkg module) then None
  else match skipn (length module) pkg with
       | [] => Some []
       | c :: r => if eqc c "/"%char then Some r else None
       end.

(** A directory as the user gives it with --project-dir: cleaned but for a slash at the end.
    The default, "", and "." have no elements. *)
Record upath := { u_abs : bool; u_elems : list bytes; u_slash : bool }.
(** filepath.Dir. *)
Definition dir_of (p : upath) : upath :=
  if u_slash p then {| u_abs := u_abs p; u_elems := u_elems p; u_slash := false |}
  else {| u_abs := u_abs p; u_elems := removelast (u_elems p); u_slash := false |}.
(** main.go:287-290 and trace.go:36-43 getProjectRoot. *)
Fixpoint project_root (p : upath) (subs : list bytes) : upath := match subs with [] => p | _ :: r => project_root (dir_of p) r end.
(** What the operating system makes of a path, in a working directory. *)
Fixpoint walk_to (at_ : dirpath) (es : list bytes) : dirpath :=
  match es with
  | [] => at_
  | e :: r => if eqs e #".." then walk_to (removelast at_) r else walk_to (at_ ++ [e]) r
  end.
Definition locate (cwd : dirpath) (p : upath) : dirpath := walk_to (if u_abs p then [] else cwd) (u_elems p).
(** trace.go:72-82: the vendor directory is looked for in the project directory. *)
Definition vendor_base (cwd : dirpath) (p : upath) : dirpath := locate cwd p.
