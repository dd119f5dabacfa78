(** * Model of the application of a patch directory to a GOROOT (instrument/patch/apply.go) *)
From Coq Require Import Ascii String List Arith Bool Lia.
From Verif Require Import M_Str M_Version M_Patch M_PatchFile.
Import ListNotations.
Open Scope nat_scope. Open Scope list_scope.

(** A file relative to a root: the names on the way.  A root: its files (directories, modes and links are not modelled). *)
Definition path := list bytes.
Definition fs := path -> option bytes.
Fixpoint eqp (a b : path) : bool :=
  match a, b with [], [] => true | x :: a, y :: b => eqs x y && eqp a b | _, _ => false end.
Definition write (g : fs) (p : path) (c : option bytes) : fs := fun q => if eqp q p then c else g q.
(** filepath.Walk: the entries of a directory in the order of their names, the files of a directory where its name stands. *)
Fixpoint path_cmp (x y : path) : comparison :=
  match x, y with
  | [], [] => Eq
  | [], _ :: _ => Lt
  | _ :: _, [] => Gt
  | a :: x, b :: y => match str_cmp a b with Eq => path_cmp x y | c => c end
  end.
Definition path_lt (x y : path) : bool := match path_cmp x y with Lt => true | _ => false end.
Definition file := (path * bytes)%type.
Fixpoint insert_file (f : file) (l : list file) : list file :=
  match l with [] => [f] | h :: r => if path_lt (fst h) (fst f) then h :: insert_file f r else f :: h :: r end.
Definition walk (dir : list file) : list file := fold_right insert_file [] dir.

Definition patch_suffix : bytes := #".xgo.patch".
Definition base (p : path) : bytes := last p [].
(** 174-178 HasSuffix/TrimSuffix of the relative path: the suffix has no slash, so it is one of the last name. *)
Definition is_patch (p : path) : bool := has_suffix (base p) patch_suffix.
Definition target (p : path) : path := removelast p ++ [trim_suffix (base p) patch_suffix].

Section Apply.
(** What go/parser says (M_Patch), and how writing to a file goes: None: well; Some c: an error, that leaves c. *)
Variable A : ast.
Variable io : path -> option (option bytes).
(** 215-235 ApplyXgoPatchContent *)
Definition patch_content (source patch : bytes) : option bytes :=
  match parse_patch patch with None => None | Some bs => apply_blocks A source bs end.
Definition put (g : fs) (p : path) (c : bytes) : fs * bool :=
  match io p with None => (write g p (Some c), true) | Some junk => (write g p junk, false) end.
(** 193-210 ApplyXgoPatchFile.  A target without a name is the directory, which can not be read. *)
Definition apply_file (g : fs) (t : path) (patch : bytes) : fs * bool :=
  match base t with
  | [] => (g, false)
  | _ =>
      match g t with
      | None => (g, false)
      | Some source => match patch_content source patch with None => (g, false) | Some r => put g t r end
      end
  end.
(** 160-187 the function given to filepath.Walk. *)
Definition visit (g : fs) (f : file) : fs * bool :=
  let '(p, c) := f in
  if eqs (base p) #"__config__.json" then (g, true)
  else if is_patch p then apply_file g (target p) c
  else put g p c.
(** 158-189 applyPatchFiles: the first error ends the walk. *)
Fixpoint visit_all (g : fs) (l : list file) : fs * bool :=
  match l with
  | [] => (g, true)
  | f :: r => let '(g, ok) := visit g f in if ok then visit_all g r else (g, false)
  end.
Definition apply_patch_files (dir : list file) (g : fs) : fs * bool := visit_all g (walk dir).
End Apply.

(** ** Generate (112-156) *)
(** strings.ReplaceAll for a non-empty [old].  [fuel]: the length of the text. *)
Fixpoint replace_all (fuel : nat) (s old new : bytes) : bytes :=
  match fuel with
  | 0 => s
  | S fuel => match index s old with None => s | Some i => firstn i s ++ new ++ replace_all fuel (skipn (i + length old) s) old new end
  end.
Definition ref (k : bytes) : bytes := #"${" ++ k ++ #"}".
(** 312-329 substituteEnv; the list is the map in the order of the iteration. *)
Fixpoint substitute (s : bytes) (env : list (bytes * bytes)) : bytes :=
  match env with [] => s | (k, v) :: r => substitute (replace_all (S (length s)) s (ref k) v) r end.
(** 301-311 shouldSkipKind *)
Definition should_skip (kind : bytes) (skip : list bytes) : bool :=
  match kind with [] => false | _ => existsb (fun k => eqs k kind) skip end.
Record generate := { g_kind : bytes; g_cmd : list bytes; g_cmd_windows : list bytes; g_cwd : bytes; g_env : list (bytes * bytes) }.
(** Where a command is run (331-340 resolveCwd; filepath.Clean and Join are not modelled). *)
Inductive place := At_goroot | At_absolute (d : bytes) | Under_goroot (d : bytes).
(** What is done for an entry. *)
Inductive action := Handle (kind : bytes) | Run (args : list bytes) (dir : place) (env : list bytes).
Definition resolve_cwd (cwd : bytes) (env : list (bytes * bytes)) : place :=
  match substitute cwd env with [] => At_goroot | s => if has_prefix s #"/" then At_absolute s else Under_goroot s end.
(** 135-145 the environment of the command. *)
Definition command_env (environ : list bytes) (goroot : bytes) (env : list (bytes * bytes)) : list bytes :=
  filter (fun e => negb (has_prefix e #"GOROOT=" || has_prefix e #"GOCACHE=" || has_prefix e #"GOPATH=")) environ ++
  [#"GOROOT=" ++ goroot; #"GOTOOLCHAIN=local"; #"GOOS="; #"GOARCH="; #"GOPATH="; #"GOCACHE="] ++
  map (fun kv => fst kv ++ #"=" ++ snd kv) env.
Section Generate.
Variables (windows : bool) (skip : list bytes) (extra : list (bytes * bytes)) (environ : list bytes) (goroot : bytes).
(** Is there a handler, and does an action succeed?  (The state that it changes is not modelled.) *)
Variables (handler : bool) (succeeds : action -> bool).
(** 56-61 EffectiveCmd *)
Definition effective (g : generate) : list bytes :=
  if windows then match g_cmd_windows g with [] => g_cmd g | c => c end else g_cmd g.
(** 113-151 one entry: None: nothing is done; Some None: an error without an action. *)
Definition entry (g : generate) : option (option action) :=
  if should_skip (g_kind g) skip then None
  else match g_kind g, g_cmd g, g_cmd_windows g with
       | _ :: _, [], [] => if handler then Some (Some (Handle (g_kind g))) else Some None
       | _, _, _ =>
           match map (fun a => substitute a extra) (effective g) with
           | [] => None
           | args => Some (Some (Run args (resolve_cwd (g_cwd g) extra) (command_env environ goroot (g_env g))))
           end
       end.
(** What is done, and whether all went well. *)
Fixpoint generate_all (l : list generate) : list action * bool :=
  match l with
  | [] => ([], true)
  | g :: r =>
      match entry g with
      | None => generate_all r
      | Some None => ([], false)
      | Some (Some a) => if succeeds a then let '(acts, ok) := generate_all r in (a :: acts, ok) else ([a], false)
      end
  end.
End Generate.
