(** * Model of the Go root kept in git (support/gitgoroot/gitgoroot.go) *)
From Coq Require Import Ascii String List Arith Bool Lia.
From Verif Require Import M_Str M_Version M_Module.
Import ListNotations.
Open Scope nat_scope.
Open Scope list_scope.

(** ** Choosing a version: gitgoroot.go:23-150 *)
(** 97-106 hasPrereleaseSuffix. *)
Definition has_prerelease_suffix (s : bytes) : bool := existsb (fun c => negb (is_digit c)) s.
(** goinfo/version.go:117-119 IsValidVersion. *)
Definition gover_eqb (a b : gover) : bool :=
  eqs (v_major a) (v_major b) && eqs (v_minor a) (v_minor b) && eqs (v_patch a) (v_patch b) && eqs (v_kind a) (v_kind b) && eqs (v_pre a) (v_pre b).
Definition is_valid_version (x : bytes) : bool := negb (gover_eqb (parse_version x) no_version).
(** strings.TrimPrefix *)
Definition trim_prefix (s p : bytes) : bytes := if has_prefix s p then skipn (length p) s else s.
(** 59-67: the latest of the versions that pass the test; the empty string when none has been met. *)
Fixpoint latest_of (ok : bytes -> bool) (all : list bytes) (latest : bytes) : bytes :=
  match all with
  | [] => latest
  | v :: r =>
      latest_of ok r
        (if ok v then if eqs latest [] || match compare_version v latest with Gt => true | _ => false end then v else latest else latest)
  end.
(** 74-86: which entries are prereleases of the asked minor version. *)
Definition prerelease_of (version v : bytes) : bool :=
  has_prefix v version &&
  match skipn (length version) v with
  | [] => false
  | c :: _ => negb (is_digit c) && is_valid_version v
  end.
(** 23-95 ResolveVersion. [page] is the version list of 125-150, None when it cannot be
    fetched (108-123). None: an error. *)
Definition resolve_version (page : option (list bytes)) (version : bytes) : option bytes :=
  let version := trim_space version in
  match version with
  | [] => None
  | _ =>
      let version := trim_prefix version #"go" in
      let parts := split "."%char version in
      if is_valid_version version && ((3 <=? length parts) || has_prerelease_suffix (last parts [])) then Some (#"go" ++ version)
      else if length parts <? 2 then None
      else if length parts =? 3 then if is_valid_version version then Some (#"go" ++ version) else None
      else if negb (length parts =? 2) then None
      else
        match page with
        | None => None
        | Some all =>
            let latest := latest_of (fun v => has_prefix v (version ++ #".")) all [] in
            match latest with
            | _ :: _ => Some (#"go" ++ latest)
            | [] =>
                match latest_of (prerelease_of version) all latest with
                | [] => None
                | latest => Some (#"go" ++ latest)
                end
            end
        end
  end.
(** 125-150 parseDownloadVersions: one line of the page. *)
Definition line_version (line : bytes) : option bytes :=
  let line := trim_space line in
  if negb (has_prefix line #"<div ") then None
  else
    match index line #"id=""go" with
    | None => None
    | Some idx =>
        let base := idx + length (#"id=""go") in
        match index (skipn base line) #"""" with
        | None => None
        | Some q =>
            match firstn q (skipn base line) with
            | [] => None
            | v => Some v
            end
        end
    end.
Fixpoint page_versions (lines : list bytes) : list bytes :=
  match lines with
  | [] => []
  | l :: r => match line_version l with Some v => v :: page_versions r | None => page_versions r end
  end.
Definition parse_download_versions (html : bytes) : list bytes := page_versions (split "010"%char html).

(** ** Showing a command: gitgoroot.go:386-407 *)
(** 394-407 shellQuote. *)
Definition safe_char (c : ascii) : bool :=
  eqc c "/"%char || eqc c "."%char || eqc c "-"%char || eqc c "_"%char || eqc c "="%char || eqc c ":"%char || is_digit c || is_upper c || is_lower c.
Definition shell_quote (s : bytes) : bytes :=
  match s with
  | [] => #"''"
  | _ => if forallb safe_char s then s else #"'" ++ flat_map (fun c => if eqc c "'"%char then #"'\''" else [c]) s ++ #"'"
  end.
(** 386-392 shellQuoteArgs. *)
Definition shell_quote_args (cmd : bytes) (args : list bytes) : bytes := join #" " (map shell_quote (cmd :: args)).

(** ** Building the Go root: gitgoroot.go:152-371 *)
(** What is on disk under the base directory for one version: the Go root, the directory the
    archive is extracted to, and the archive. Files are given by their path within the
    directory; [.git] is modelled apart, as the state of the repository. *)
Definition files := bytes -> option bytes.
Definition no_files : files := fun _ => None.
Definition put (f : files) (p c : bytes) : files := fun q => if eqs q p then Some c else f q.
Definition del (f : files) (p : bytes) : files := fun q => if eqs q p then None else f q.
(** [over g f]: the files of f with those of g written over them. *)
Definition over (g f : files) : files := fun q => match g q with Some c => Some c | None => f q end.
Record gitdir := Git { g_branch : bytes; g_index : files; g_commits : list (bytes * files); g_filemode : bool }.
Inductive repo := NoRepo | Broken | Repo (g : gitdir).
Record tree := Tree { t_files : files; t_repo : repo }.
Record fs := Fs { s_goroot : option tree; s_tmp : option files; s_tar : option bool }.

(** The world the function runs in: the files of the release, what make.bash adds, the
    branch a fresh repository starts on, the resolved version name, and whether removing a
    directory happens to remove the marker after everything else. *)
Record world := World { w_release : files; w_built : files; w_default_branch : bytes; w_version : bytes; w_marker_last : bool }.
(** 20 *)
Definition marker : bytes := #".xgo-incomplete".

(** A program ends with a value, with an error, or it is killed; it may leave the disk in
    any of several states. *)
Inductive outcome (A : Type) := Done (a : A) | Fail | Crash.
Arguments Done {A} a. Arguments Fail {A}. Arguments Crash {A}.
Definition prog (A : Type) := fs -> outcome A -> fs -> Prop.
Definition ret {A} (a : A) : prog A := fun s o s' => o = Done a /\ s' = s.
Definition failed {A} : prog A := fun s o s' => o = Fail /\ s' = s.
Definition get : prog fs := fun s o s' => o = Done s /\ s' = s.
Definition bind {A B} (p : prog A) (q : A -> prog B) : prog B := fun s o s' =>
  (exists a s1, p s (Done a) s1 /\ q a s1 o s') \/ (p s Fail s' /\ o = Fail) \/ (p s Crash s' /\ o = Crash).
Notation "p >> q" := (bind p (fun _ => q)) (at level 60, right associativity).
(** When p fails, run q instead. *)
Definition or_else {A} (p q : prog A) : prog A := fun s o s' =>
  (p s o s' /\ o <> Fail) \/ (exists s1, p s Fail s1 /\ q s1 o s').
(** When p fails, run q, ignoring its outcome, and fail. *)
Definition on_failure {A} (p : prog A) (q : prog unit) : prog A := fun s o s' =>
  (p s o s' /\ o <> Fail) \/ (exists s1 o1, p s Fail s1 /\ q s1 o1 s' /\ o = match o1 with Crash => Crash | _ => Fail end).
(** defer q: run q when p has ended, ignoring its outcome. *)
Definition finally {A} (p : prog A) (q : prog unit) : prog A := fun s o s' =>
  (p s Crash s' /\ o = Crash) \/
  (exists o1 s1 o2, p s o1 s1 /\ o1 <> Crash /\ q s1 o2 s' /\ o = (match o2 with Crash => Crash | _ => o1 end)).
(** A step that happens entirely or not at all; it may fail, and the process may be killed
    before it. (Being killed after it is being killed before the next one, or returning.) *)
Definition step (f : fs -> fs) : prog unit := fun s o s' =>
  (o = Done tt /\ s' = f s) \/ (o = Fail /\ s' = s) \/ (o = Crash /\ s' = s).
(** A step that can be cut short, leaving one of the states [between]. *)
Definition long_step (between : fs -> fs -> Prop) (finish : fs -> fs -> Prop) : prog unit := fun s o s' =>
  (o = Done tt /\ finish s s') \/ (o = Fail /\ between s s') \/ (o = Crash /\ between s s').
(** A question put to git. *)
Definition ask {A} (answer : fs -> option A -> Prop) : prog A := fun s o s' =>
  s' = s /\ ((exists a, answer s (Some a) /\ o = Done a) \/ (answer s None /\ o = Fail) \/ o = Crash).

Definition set_goroot (s : fs) (g : option tree) : fs := Fs g (s_tmp s) (s_tar s).
Definition set_tmp (s : fs) (t : option files) : fs := Fs (s_goroot s) t (s_tar s).
Definition set_tar (s : fs) (t : option bool) : fs := Fs (s_goroot s) (s_tmp s) t.
Definition on_files (s : fs) (f : files -> files) : fs :=
  match s_goroot s with Some t => set_goroot s (Some (Tree (f (t_files t)) (t_repo t))) | None => s end.
Definition has_file (s : fs) (p : bytes) : bool :=
  match s_goroot s with Some t => match t_files t p with Some _ => true | None => false end | None => false end.

(** os.RemoveAll on the Go root: entries go one by one, in the order the directory lists
    them, so some may be gone and others not; the directory itself goes last. *)
Definition being_removed (marker_last : bool) (t t' : tree) : Prop :=
  (forall p, t_files t' p = t_files t p \/ t_files t' p = None) /\
  (t_repo t' = t_repo t \/ t_repo t' = Broken \/ t_repo t' = NoRepo) /\
  (marker_last = true -> t_files t' marker = t_files t marker \/ (forall p, t_files t' p = None) /\ t_repo t' = NoRepo).
Definition remove_goroot (w : world) : prog unit :=
  long_step
    (fun s s' => match s_goroot s with
                 | None => s' = s
                 | Some t => (exists t', being_removed (w_marker_last w) t t' /\ s' = set_goroot s (Some t'))
                 end)
    (fun s s' => s' = set_goroot s None).
(** os.WriteFile(goroot/name): fails when the directory is not there. *)
Definition write_file (name content : bytes) : prog unit := fun s o s' =>
  match s_goroot s with
  | None => (o = Fail \/ o = Crash) /\ s' = s
  | Some _ => step (fun s => on_files s (fun f => put f name content)) s o s'
  end.
(** os.MkdirAll(goroot). *)
Definition mkdir_goroot : prog unit :=
  step (fun s => match s_goroot s with None => set_goroot s (Some (Tree no_files NoRepo)) | Some _ => s end).

(** A path written by a command that was cut short may hold anything. *)
Definition partly (new : files) (f f' : files) : Prop := forall p, f' p = f p \/ (new p <> None /\ f' p <> None).
(** 262-269: curl -fL -o tarPath. *)
Definition curl : prog unit := long_step (fun s s' => exists x, s' = set_tar s x) (fun s s' => s' = set_tar s (Some true)).
(** 271-274 *)
Definition mkdir_tmp : prog unit := step (fun s => match s_tmp s with None => set_tmp s (Some no_files) | Some _ => s end).
(** 277-279: tar -xzf tarPath -C tmpExtract. *)
Definition untar (w : world) : prog unit := fun s o s' =>
  match s_tmp s, s_tar s with
  | Some t, Some true =>
      long_step (fun s s' => exists t', partly (w_release w) t t' /\ s' = set_tmp s (Some t'))
                (fun s s' => s' = set_tmp s (Some (over (w_release w) t))) s o s'
  | _, _ => (o = Fail \/ o = Crash) /\ s' = s
  end.
(** 281-296: the extracted entries are renamed into the Go root one by one. *)
Definition move_files : prog unit := fun s o s' =>
  match s_tmp s, s_goroot s with
  | Some t, Some g =>
      long_step (fun s s' => exists moved : bytes -> bool,
                   s' = Fs (Some (Tree (fun p => if moved p then over t (t_files g) p else t_files g p) (t_repo g)))
                           (Some (fun p => if moved p then None else t p)) (s_tar s))
                (fun s s' => s' = Fs (Some (Tree (over t (t_files g)) (t_repo g))) (Some no_files) (s_tar s)) s o s'
  | _, _ => (o = Fail \/ o = Crash) /\ s' = s
  end.
Definition remove_tmp : prog unit :=
  long_step (fun s s' => match s_tmp s with
                         | None => s' = s
                         | Some t => exists t', (forall p, t' p = t p \/ t' p = None) /\ s' = set_tmp s (Some t')
                         end)
            (fun s s' => s' = set_tmp s None).
Definition remove_tar : prog unit := step (fun s => set_tar s None).
(** 260-299 downloadAndExtract. *)
Definition download_and_extract (w : world) : prog unit :=
  curl >> finally (mkdir_tmp >> finally (untar w >> move_files) remove_tmp) remove_tar.

(** A git command that changes the repository; cut short, the repository is as it was,
    changed, or broken. Outside a repository it fails (the base directory is taken to be
    outside any work tree). *)
Definition git (f : tree -> gitdir -> gitdir) : prog unit := fun s o s' =>
  match s_goroot s with
  | Some t =>
      match t_repo t with
      | Repo g =>
          long_step (fun s s' => s' = s \/ (exists g', s' = set_goroot s (Some (Tree (t_files t) (Repo g')))) \/ s' = set_goroot s (Some (Tree (t_files t) Broken)))
                    (fun s s' => s' = set_goroot s (Some (Tree (t_files t) (Repo (f t g))))) s o s'
      | Broken => long_step (fun s s' => s' = s) (fun s s' => exists r, s' = set_goroot s (Some (Tree (t_files t) r))) s o s'
      | NoRepo => (o = Fail \/ o = Crash) /\ s' = s
      end
  | None => (o = Fail \/ o = Crash) /\ s' = s
  end.
(** 212: git init -q. *)
Definition git_init (w : world) : prog unit := fun s o s' =>
  match s_goroot s with
  | Some (Tree f NoRepo) =>
      long_step (fun s s' => s' = s \/ s' = set_goroot s (Some (Tree f Broken)))
                (fun s s' => s' = set_goroot s (Some (Tree f (Repo (Git (w_default_branch w) no_files [] true))))) s o s'
  | Some _ => (o = Done tt \/ o = Fail \/ o = Crash) /\ s' = s
  | None => (o = Fail \/ o = Crash) /\ s' = s
  end.
(** 224, 228-235, 237, 243: add, commit, branch -m, config core.filemode false. *)
Definition git_add : prog unit := git (fun t g => Git (g_branch g) (t_files t) (g_commits g) (g_filemode g)).
Definition git_commit (msg : bytes) : prog unit := git (fun t g => Git (g_branch g) (g_index g) ((msg, g_index g) :: g_commits g) (g_filemode g)).
Definition git_rename_branch (name : bytes) : prog unit := git (fun t g => Git name (g_index g) (g_commits g) (g_filemode g)).
Definition git_no_filemode : prog unit := git (fun t g => Git (g_branch g) (g_index g) (g_commits g) false).
(** 301-311 buildGoToolchain: make.bash, run in the src directory of the Go root. *)
Definition make_bash (w : world) : prog unit := fun s o s' =>
  match s_goroot s with
  | Some t =>
      long_step (fun s s' => exists f', partly (w_built w) (t_files t) f' /\ s' = set_goroot s (Some (Tree f' (t_repo t))))
                (fun s s' => s' = set_goroot s (Some (Tree (over (w_built w) (t_files t)) (t_repo t)))) s o s'
  | None => (o = Fail \/ o = Crash) /\ s' = s
  end.
(** 207-248 initGitGoroot. *)
Definition ignore_text : bytes := #".DS_Store" ++ ["010"%char].
Definition init_git_goroot (w : world) : prog unit :=
  download_and_extract w >>
  git_init w >>
  write_file #".gitignore" ignore_text >>
  make_bash w >>
  git_add >>
  git_commit (#"init " ++ w_version w) >>
  git_rename_branch (w_version w) >>
  git_no_filemode.

(** 313-344 IsGitGorootValid. Questions to a broken repository may get any answer. *)
Definition ask_repo {A} (f : gitdir -> option A) : prog A :=
  ask (fun s a => match s_goroot s with
                  | Some t => match t_repo t with Repo g => a = f g | Broken => True | NoRepo => a = None end
                  | None => a = None
                  end).
Definition is_valid (w : world) : prog bool :=
  bind get (fun s =>
  if has_file s marker then ret false
  else
    bind (ask_repo (fun g => Some (g_branch g))) (fun branch =>
    if negb (eqs branch (w_version w)) then ret false
    else
      (* rev-list HEAD fails while there is no commit *)
      bind (ask_repo (fun g => match g_commits g with [] => None | l => Some (length l) end)) (fun count =>
      if negb (count =? 1) then ret false
      else
        bind (ask_repo (fun g => match g_commits g with [] => None | c :: _ => Some (fst c) end)) (fun msg =>
        ret (eqs msg (#"init " ++ w_version w)))))).

(** 152-205 EnsureGitGoroot, once the version is resolved. The base directory itself is
    taken to exist (180-182). *)
Definition ensure (w : world) : prog unit :=
  bind get (fun s =>
    match s_goroot s with
    | Some _ => if has_file s marker then remove_goroot w else ret tt
    | None => ret tt
    end) >>
  bind get (fun s =>
    match s_goroot s with
    | Some _ => bind (is_valid w) (fun v => if v then ret tt else failed)
    | None =>
        or_else (write_file marker []) (mkdir_goroot >> write_file marker []) >>
        on_failure (init_git_goroot w) (remove_goroot w) >>
        step (fun s => on_files s (fun f => del f marker))
    end).

(** 346-371 SpawnWorktree: the files of a worktree at HEAD. *)
Definition worktree_files (s : fs) : option files :=
  match s_goroot s with
  | Some t => match t_repo t with Repo g => match g_commits g with c :: _ => Some (snd c) | [] => None end | _ => None end
  | None => None
  end.
