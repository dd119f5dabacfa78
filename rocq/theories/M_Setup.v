(** * Model of setting up the patched GOROOT (cmd/xgo/main.go:344-446, 503-579,
    cmd/xgo/patch.go:44-262, support/filecopy/copy.go:81-150, 249-306) as a sequence of
    effects on the instrument directory, any of which may be the last one before a crash.

    Release build, GOROOT not itself instrumented (instrumented = false), no
    --patch-goroot-in-place.  Directories other than the GOROOT copy are not modelled; a file
    that is being written is torn until the write ends.  A run that returns an error stops
    after some effect, as a crash does. *)
From Coq Require Import List Arith Bool Lia.
Import ListNotations.

Definition path := nat.
Definition revision := nat.
(** The content of a file of the copy: as in the original GOROOT, written in part, as patched by a
    revision of xgo, or patched twice over by different ones. *)
Inductive content := Orig | Torn | Pat (r : revision) | Mixed.
(** xgo-revision.txt. *)
Inductive note := Absent | Empty | Holds (r : revision).
Record state := {
  rev_file : note;                       (* instrumentDir/xgo-revision.txt *)
  record_file : bool;                    (* instrumentDir/full-sync-record.txt exists *)
  dir : bool;                            (* the GOROOT copy exists as a directory *)
  file : path -> option content          (* its files *)
}.
(** The original GOROOT: its files, which are below src, the go binary; and the files that a
    revision of xgo patches, creates or rebuilds. *)
Record world := { w_orig : list path; w_src : path -> bool; w_go : path; w_changed : revision -> list path }.

Inductive effect :=
| DelFile (p : path) | DelDir | MkDir | Put (p : path) (c : content) | DelRecord | PutRecord | DelRev | PutRev (n : note).
Definition upd (f : path -> option content) (p : path) (c : option content) : path -> option content := fun q => if q =? p then c else f q.
Definition apply1 (s : state) (e : effect) : state :=
  match e with
  | DelFile p => {| rev_file := rev_file s; record_file := record_file s; dir := dir s; file := upd (file s) p None |}
  | Put p c => {| rev_file := rev_file s; record_file := record_file s; dir := dir s; file := upd (file s) p (Some c) |}
  | DelDir => {| rev_file := rev_file s; record_file := record_file s; dir := false; file := file s |}
  | MkDir => {| rev_file := rev_file s; record_file := record_file s; dir := true; file := file s |}
  | DelRecord => {| rev_file := rev_file s; record_file := false; dir := dir s; file := file s |}
  | PutRecord => {| rev_file := rev_file s; record_file := true; dir := dir s; file := file s |}
  | DelRev => {| rev_file := Absent; record_file := record_file s; dir := dir s; file := file s |}
  | PutRev n => {| rev_file := n; record_file := record_file s; dir := dir s; file := file s |}
  end.
Definition apply (s : state) (l : list effect) : state := fold_left apply1 l s.

(** patch.go:161-170 checkRevisionChanged (readOrEmpty, 173-185, gives "" for no file). *)
Definition revision_changed (r : revision) (s : state) : bool :=
  match rev_file s with Holds r' => negb (r' =? r) | _ => true end.
(** copy.go:298-306, 317-345: each file is created, then filled. *)
Definition copy_effects (files : list path) : list effect := flat_map (fun p => [Put p Torn; Put p Orig]) files.
(** What becomes of a file: sources are edited in place (EditFile finds its own marks, C45),
    binaries are rebuilt. *)
Definition patched (w : world) (r : revision) (p : path) (c : option content) : content :=
  if w_src w p then
    match c with
    | None | Some Orig => Pat r
    | Some (Pat r') => if r' =? r then Pat r else Mixed
    | _ => Mixed
    end
  else Pat r.
(** patch.go:44-159 patchRuntime: file by file. *)
Fixpoint patch_effects (w : world) (r : revision) (files : list path) (s : state) : list effect :=
  match files with
  | [] => []
  | p :: rest =>
      let e := [Put p Torn; Put p (patched w r p (file s p))] in
      e ++ patch_effects w r rest (apply s e)
  end.
(** The order in which directory entries are removed and visited. *)
Record orders := {
  reset_order : list effect;             (* os.RemoveAll(instrumentDir) *)
  remove_order : list path;              (* os.RemoveAll of the copy, or of its src *)
  copy_order : list path; patch_order : list path
}.
(** patch.go:188-256 syncGoroot. *)
Definition sync_effects (w : world) (o : orders) (s : state) : list effect :=
  let go_copied := match file s (w_go w) with Some _ => dir s | None => false end in
  if go_copied && record_file s then
    map DelFile (filter (w_src w) (remove_order o)) ++ copy_effects (filter (w_src w) (copy_order o))
  else
    [DelRecord] ++ map DelFile (remove_order o) ++ [DelDir; MkDir] ++ copy_effects (copy_order o) ++ [PutRecord].
(** main.go:435-446 and 503-579: the effects of a run of xgo at revision r.  The missing
    GOROOT is looked for before --reset-instrument removes it. *)
Definition setup_effects (w : world) (o : orders) (r : revision) (reset : bool) (s : state) : list effect :=
  let changed := revision_changed r s in
  let recreate := negb (dir s) in
  let e0 := if reset then reset_order o else [] in
  if reset || changed || recreate then
    let s1 := apply s e0 in
    let e1 := sync_effects w o s1 in
    let e2 := patch_effects w r (patch_order o) (apply s1 e1) in
    e0 ++ e1 ++ e2 ++ [PutRev Empty; PutRev (Holds r)]
  else e0.
(** main.go:411-426, xgo setup --delete. *)
Definition delete_effects (o : orders) : list effect := reset_order o.
