(** * Model of which entries of a directory are copied (support/filecopy/copy.go:86-121, 246-303) *)
From Coq Require Import Ascii String List Arith Bool.
From Verif Require Import M_Str.
Import ListNotations.
Open Scope nat_scope.
Open Scope list_scope.

(** A directory as filepath.WalkDir reads it, its entries in the order of the walk. *)
Inductive node := NFile | NLink (target : bytes) | NOther | NDir (entries : list (bytes * node)).
Record copts := { ignore_sub : list bytes; ignore_suffix : list bytes; include_suffix : list bytes }.
(** What is done below the target directory; a path is a list of names. *)
Inductive act := Mk (p : list bytes) | Link (p : list bytes) (target : bytes) | Cp (p : list bytes).
(** copy.go:274 path[prefixLen:]. *)
Definition sub_path (p : list bytes) : bytes := join #"/" p.
Definition empty (s : bytes) : bool := match s with [] => true | _ => false end.
(** copy.go:86-121 filterSubPath; without options there is no filter, which is the same as one
    that lets everything pass. *)
Definition passes (o : copts) (p : list bytes) (is_dir : bool) : bool :=
  let s := sub_path p in
  if existsb (fun i => negb (empty i) && eqs i s) (ignore_sub o) then false
  else if is_dir then true
  else if (match include_suffix o with [] => false | _ => true end) && negb (existsb (fun x => negb (empty x) && has_suffix s x) (include_suffix o)) then false
  else negb (existsb (fun x => negb (empty x) && has_suffix s x) (ignore_suffix o)).
(** copy.go:266-303: the callback for an entry, and the walk below it (SkipDir leaves a directory out). *)
Fixpoint visit (o : copts) (p : list bytes) (n : node) : list act :=
  if negb (passes o p (match n with NDir _ => true | _ => false end)) then []
  else match n with
       | NDir es => Mk p :: (fix go (es : list (bytes * node)) := match es with [] => [] | (x, m) :: r => visit o (p ++ [x]) m ++ go r end) es
       | NLink t => [Link p t]
       | NOther => []
       | NFile => [Cp p]
       end.
Definition visits (o : copts) (p : list bytes) (es : list (bytes * node)) : list act := flat_map (fun e => visit o (p ++ [fst e]) (snd e)) es.
(** copy.go:246-303 copyDirHandle: the root is made whatever the filter says. *)
Definition copy_tree (o : copts) (es : list (bytes * node)) : list act := Mk [] :: visits o [] es.
