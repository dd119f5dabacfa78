(** * Specification of the trace stacks (C12, C13): what a well-formed call tree
    is, and what an export taken during a run may show.  Uses only the data
    types of M_Stack. *)
From Coq Require Import List Arith Bool ZArith Sorted.
From Verif Require Import M_Stack.
Import ListNotations.

(** Entries of a stack: what can be reached from its roots. *)
Inductive reach (h : list entry) (roots : list ptr) : ptr -> Prop :=
| reach_root p : In p roots -> reach h roots p
| reach_child p c : reach h roots p -> In c (e_children (get h p)) -> reach h roots c.

Definition entry_of (m : mem) (s : sid) (p : ptr) : Prop := reach (heap m) (s_roots (get_stack m s)) p.

(** Entries recording a call (the others are "go" markers). *)
Definition is_call (m : mem) (p : ptr) : Prop := e_go (get (heap m) p) = None.

(** [desc h p q]: q is p or below p. *)
Definition desc (h : list entry) (p q : ptr) : Prop := reach h [p] q.

(** A path of entries from a root downwards. *)
Fixpoint path_from (h : list entry) (candidates : list ptr) (path : list ptr) : Prop :=
  match path with
  | [] => True
  | p :: r => In p candidates /\ path_from h (e_children (get h p)) r
  end.

Fixpoint last_opt (l : list ptr) : option ptr :=
  match l with [] => None | [x] => Some x | _ :: r => last_opt r end.

Record well_formed (m : mem) (s : sid) : Prop := {
  (* it is a tree: no entry is listed twice anywhere *)
  wf_nodup_roots : NoDup (s_roots (get_stack m s));
  wf_nodup_children : forall p, entry_of m s p -> NoDup (e_children (get (heap m) p));
  wf_one_parent : forall p q c, entry_of m s p -> entry_of m s q ->
      In c (e_children (get (heap m) p)) -> In c (e_children (get (heap m) q)) -> p = q;
  wf_root_no_parent : forall p c, entry_of m s p -> In c (e_children (get (heap m) p)) ->
      ~ In c (s_roots (get_stack m s));
  (* IDs are unique, and increase in document order: downwards and to the right *)
  wf_id_unique : forall p q, entry_of m s p -> entry_of m s q -> is_call m p -> is_call m q ->
      e_id (get (heap m) p) = e_id (get (heap m) q) -> p = q;
  wf_id_down : forall p c, entry_of m s p -> is_call m p -> is_call m c ->
      In c (e_children (get (heap m) p)) -> e_id (get (heap m) p) < e_id (get (heap m) c);
  wf_id_right : forall p l1 l2 l3 c1 c2 d, entry_of m s p ->
      e_children (get (heap m) p) = l1 ++ c1 :: l2 ++ c2 :: l3 ->
      desc (heap m) c1 d -> is_call m d -> is_call m c2 ->
      e_id (get (heap m) d) < e_id (get (heap m) c2);
  wf_id_right_roots : forall l1 l2 l3 c1 c2 d,
      s_roots (get_stack m s) = l1 ++ c1 :: l2 ++ c2 :: l3 ->
      desc (heap m) c1 d -> is_call m d -> is_call m c2 ->
      e_id (get (heap m) d) < e_id (get (heap m) c2);
  (* ParentID names the real parent, 0 for roots *)
  wf_parent_id : forall p c, entry_of m s p -> In c (e_children (get (heap m) p)) -> is_call m c ->
      e_parent (get (heap m) c) = e_id (get (heap m) p);
  wf_root_parent_id : forall r, In r (s_roots (get_stack m s)) -> e_parent (get (heap m) r) = 0;
  (* the unfinished calls are exactly the path from a root to Top, Depth is its length *)
  wf_open_path : exists path,
      path_from (heap m) (s_roots (get_stack m s)) path /\
      s_top (get_stack m s) = last_opt path /\
      s_depth (get_stack m s) = Z.of_nat (length path) /\
      (forall p, In p path -> is_call m p) /\
      forall p, entry_of m s p -> is_call m p ->
        (e_finished (get (heap m) p) = false <-> In p path)
}.

(** ** Tree values *)
Inductive vtree := V (fn args : nat) (finished : bool) (res : option (nat * bool)) (go : option sid) (ch : list vtree).

(** The tree a pointer denotes in a heap. *)
Inductive repr (h : list entry) : ptr -> vtree -> Prop :=
| Repr p vs : p < length h -> Forall2 (repr h) (e_children (get h p)) vs ->
    repr h p (V (e_fn (get h p)) (e_args (get h p)) (e_finished (get h p)) (e_res (get h p)) (e_go (get h p)) vs).

Definition trees_of (m : mem) (s : sid) (vs : list vtree) : Prop :=
  Forall2 (repr (heap m)) (s_roots (get_stack m s)) vs.

(** An export is correct with respect to a set [P] of instants when each stack
    in it is shown as it was at one of these instants. *)
Inductive shown (P : mem -> Prop) : vtree -> xtree -> Prop :=
| shown_call fn args fin res vs xs :
    Forall2 (shown P) vs xs ->
    shown P (V fn args fin res None vs) (X (Some fn) (negb fin) args res xs)
| shown_go fn args fin res child vs xs m cvs cxs :
    Forall2 (shown P) vs xs ->
    P m -> trees_of m child cvs -> Forall2 (shown P) cvs cxs ->
    shown P (V fn args fin res (Some child) vs)
            (X None (negb (s_end (get_stack m child))) args res (xs ++ cxs)).

Definition exported (P : mem -> Prop) (s : sid) (xs : list xtree) : Prop :=
  exists m vs, P m /\ trees_of m s vs /\ Forall2 (shown P) vs xs.

(** The instants of a run from w to w'. *)
Definition during (w w' : world) (m : mem) : Prop :=
  exists a b wi, run a w = Some wi /\ run b wi = Some w' /\ w_mem wi = m.

(** No half-built entry: a call is shown with results exactly when it is not running. *)
Inductive complete : xtree -> Prop :=
| complete_call fn running args res ch :
    (running = true <-> res = None) -> Forall complete ch ->
    complete (X (Some fn) running args res ch)
| complete_go running args res ch : Forall complete ch -> complete (X None running args res ch).
