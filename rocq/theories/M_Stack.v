(** * Model of the per-goroutine trace stacks
    (runtime/internal/stack/stack.go, export.go, and the parts of
    runtime/internal/trap/{trap,init}.go that drive them).

    Pointers are explicit: all Entry objects, including the copies made by
    Snapshot, live in one heap; sharing or in-place modification of an exported
    copy would be visible.  Every operation that takes Stack.mu is one atomic
    step; everything an export does outside the mutex may be interleaved with
    arbitrary steps of other goroutines.

    Simplifications: time stamps, FuncInfo, File, Line, Error and HitMock are
    not represented (constant payload like [e_args]/[e_res]); Begin is not
    represented; End is a flag (non-zero time). *)
From Coq Require Import List Arith Bool ZArith Lia.
Import ListNotations.

Definition ptr := nat.      (* *Entry: index in the heap *)
Definition sid := nat.      (* *Stack: index in the list of stacks *)

(** Entry (stack.go:42-68). *)
Record entry := Entry {
  e_id : nat; e_parent : nat; e_fn : nat;
  e_args : nat;                       (* Args, set by the setup callback, trap.go:325-330 *)
  e_finished : bool;
  e_res : option (nat * bool);        (* Results and Panic, set by the finish callback, trap.go:408-420 *)
  e_go : option sid;                  (* Go / GetStack *)
  e_children : list ptr
}.

(** Stack (stack.go:16-31). *)
Record stack := Stack {
  s_maxid : nat; s_roots : list ptr; s_top : option ptr; s_depth : Z; s_end : bool
}.
Definition new_stack := Stack 0 [] None 0 false.

Record mem := Mem { heap : list entry; stacks : list stack }.

Definition dummy_entry := Entry 0 0 0 0 false None None [].
Definition get (h : list entry) (p : ptr) : entry := nth p h dummy_entry.

Fixpoint upd {A} (l : list A) (i : nat) (f : A -> A) : list A :=
  match l, i with
  | [], _ => []
  | x :: r, 0 => f x :: r
  | x :: r, S i => x :: upd r i f
  end.

Definition get_stack (m : mem) (s : sid) : stack := nth s (stacks m) new_stack.

Definition add_child (c : ptr) (e : entry) : entry :=
  Entry (e_id e) (e_parent e) (e_fn e) (e_args e) (e_finished e) (e_res e) (e_go e) (e_children e ++ [c]).

(** PushNew (stack.go:127-138) = newEntryLocked (115-122; MaxEntryID++, the ID
    is the new MaxEntryID) + pushLocked (92-105; MaxEntryID++ again, ParentID
    and Children of the old top or Roots, Top) + setup + Depth++.
    Returns the new entry and the old top. *)
Definition push_new (m : mem) (s : sid) (fn args : nat) : mem * (ptr * option ptr) :=
  let st := get_stack m s in
  let id := S (s_maxid st) in
  let p := length (heap m) in
  let e0 := Entry id 0 fn args false None None [] in
  match s_top st with
  | None =>
      (Mem (heap m ++ [e0])
           (upd (stacks m) s (fun st => Stack (S (S (s_maxid st))) (s_roots st ++ [p]) (Some p) (s_depth st + 1) (s_end st))),
       (p, None))
  | Some t =>
      let e := Entry id (e_id (get (heap m) t)) fn args false None None [] in
      (Mem (upd (heap m) t (add_child p) ++ [e])
           (upd (stacks m) s (fun st => Stack (S (S (s_maxid st))) (s_roots st) (Some p) (s_depth st + 1) (s_end st))),
       (p, Some t))
  end.

(** Finish (stack.go:142-153) with the finish callback of trap.go:408-420. *)
Definition finish (m : mem) (s : sid) (cur : ptr) (old : option ptr) (set_end : bool) (res : nat) (panic : bool) : mem :=
  Mem (upd (heap m) cur (fun e => Entry (e_id e) (e_parent e) (e_fn e) (e_args e) true (Some (res, panic)) (e_go e) (e_children e)))
      (upd (stacks m) s (fun st => Stack (s_maxid st) (s_roots st) old (s_depth st - 1) (s_end st || set_end))).

(** AppendGoChild (stack.go:156-172): nothing when Top is nil. *)
Definition append_go (m : mem) (s : sid) (child : sid) : mem :=
  match s_top (get_stack m s) with
  | None => m
  | Some t =>
      let p := length (heap m) in
      Mem (upd (heap m) t (add_child p) ++ [Entry 0 0 0 0 false None (Some child) []]) (stacks m)
  end.

(** SetEndIfZero (stack.go:175-186). *)
Definition set_end_if_zero (m : mem) (s : sid) : mem :=
  Mem (heap m) (upd (stacks m) s (fun st => Stack (s_maxid st) (s_roots st) (s_top st) (s_depth st) true)).

(** cloneEntries / cloneEntry (stack.go:233-257): [cp := *e] allocates the copy,
    which shares the children slice until [cp.Children] is replaced by the
    clones.  The Go recursion has no fuel; [S (length heap)] is enough for every
    reachable heap (children are younger than their parent), see P_Stack. *)
Fixpoint clone_entries (fuel : nat) (h : list entry) (ps : list ptr) : list entry * list ptr :=
  match fuel with
  | 0 => (h, [])
  | S k =>
      (fix go (h : list entry) (ps : list ptr) : list entry * list ptr :=
         match ps with
         | [] => (h, [])
         | p :: r =>
             let q := length h in
             let h1 := h ++ [get h p] in
             let (h2, cs) := clone_entries k h1 (e_children (get h p)) in
             let h3 := upd h2 q (fun e => Entry (e_id e) (e_parent e) (e_fn e) (e_args e) (e_finished e) (e_res e) (e_go e) cs) in
             let (h4, qs) := go h3 r in
             (h4, q :: qs)
         end) h ps
  end.

(** Snapshot (stack.go:191-198): End and the cloned roots. *)
Definition snapshot (m : mem) (s : sid) : mem * (bool * list ptr) :=
  let (h, ps) := clone_entries (S (length (heap m))) (heap m) (s_roots (get_stack m s)) in
  (Mem h (stacks m), (s_end (get_stack m s), ps)).

(** ** Goroutines driving their stacks *)

(** A goroutine owns the stack with its own index.  [g_frames]: the (cur,
    oldTop) pairs captured by the deferred post functions of its unfinished
    traced calls, innermost first (trap.go:325,333: LIFO because post is run by
    a defer statement). *)
Record gor := Gor { g_frames : list (ptr * option ptr); g_alive : bool }.
Definition dead_gor := Gor [] false.

Record world := World { w_mem : mem; w_gs : list gor }.

Inductive action :=
| APush (g : nat) (fn args : nat)          (* a traced call begins: trap.go:325 *)
| AFinish (g : nat) (set_end : bool) (res : nat) (panic : bool) (* its post runs: trap.go:333-420 *)
| AFork (g : nat) (traced : bool)          (* go statement: init.go:31-69 *)
| AExit (g : nat)                          (* goroutine exit: init.go:20-28 *)
| ASnapshot (s : sid).                     (* somebody exports stack s *)

Definition gor_at (w : world) (g : nat) : gor := nth g (w_gs w) dead_gor.

(** One atomic step; None when the goroutine cannot do that. *)
Definition step (w : world) (a : action) : option world :=
  match a with
  | APush g fn args =>
      if g_alive (gor_at w g) then
        let (m, fr) := push_new (w_mem w) g fn args in
        Some (World m (upd (w_gs w) g (fun x => Gor (fr :: g_frames x) (g_alive x))))
      else None
  | AFinish g set_end res panic =>
      if g_alive (gor_at w g) then
        match g_frames (gor_at w g) with
        | [] => None
        | (cur, old) :: _ =>
            Some (World (finish (w_mem w) g cur old set_end res panic)
                        (upd (w_gs w) g (fun x => Gor (tl (g_frames x)) (g_alive x))))
        end
      else None
  | AFork g traced =>
      if g_alive (gor_at w g) then
        let c := length (w_gs w) in
        let m1 := Mem (heap (w_mem w)) (stacks (w_mem w) ++ [new_stack]) in
        let m2 := if traced then append_go m1 g c else m1 in
        Some (World m2 (w_gs w ++ [Gor [] true]))
      else None
  | AExit g =>
      if g_alive (gor_at w g) then
        match g_frames (gor_at w g) with
        | [] => Some (World (set_end_if_zero (w_mem w) g) (upd (w_gs w) g (fun x => Gor [] false)))
        | _ :: _ => None      (* deferred posts run before the exit hook *)
        end
      else None
  | ASnapshot s => Some (World (fst (snapshot (w_mem w) s)) (w_gs w))
  end.

Fixpoint run (acts : list action) (w : world) : option world :=
  match acts with
  | [] => Some w
  | a :: r => match step w a with None => None | Some w' => run r w' end
  end.

(** One goroutine with an empty stack. *)
Definition init_world : world := World (Mem [] [new_stack]) [Gor [] true].

(** A traced call whose trap panics after PushNew (the mock panics,
    trap.go:449-456: [post] is never returned, hence never deferred). *)
Definition abandon (w : world) (g : nat) : world :=
  World (w_mem w) (upd (w_gs w) g (fun x => Gor (tl (g_frames x)) (g_alive x))).

(** ** Export, interleaved with the other goroutines *)

(** stack_model.StackEntry, reduced to name, "(running)" suffix, Args, Results/Panic, Children. *)
Inductive xtree := X (fn : option nat) (running : bool) (args : nat) (res : option (nat * bool)) (ch : list xtree).

(** The environment: before each access to shared memory the other goroutines
    do the actions at the head of [env] (all schedules, as [env] is arbitrary). *)
Definition env := list (list action).
Definition env_step (w : world) (ev : env) : option (world * env) :=
  match ev with
  | [] => Some (w, [])
  | acts :: r => match run acts w with None => None | Some w' => Some (w', r) end
  end.

(** ExportStackEntries / ExportStackEntry (export.go:26-88): reads the cloned
    entry, exports its children, then for a go entry snapshots the child stack
    and exports that. *)
Fixpoint export_entries (fuel : nat) (ps : list ptr) (w : world) (ev : env) : option (world * env * list xtree) :=
  match fuel with
  | 0 => None
  | S k =>
      match ps with
      | [] => Some (w, ev, [])
      | p :: r =>
          match env_step w ev with
          | None => None
          | Some (w1, ev1) =>
              let e := get (heap (w_mem w1)) p in
              match export_entries k (e_children e) w1 ev1 with
              | None => None
              | Some (w2, ev2, xs) =>
                  let rest w ev x :=
                    match export_entries k r w ev with
                    | None => None
                    | Some (w', ev', xs') => Some (w', ev', x :: xs')
                    end in
                  match e_go e with
                  | None => rest w2 ev2 (X (Some (e_fn e)) (negb (e_finished e)) (e_args e) (e_res e) xs)
                  | Some child =>
                      match env_step w2 ev2 with
                      | None => None
                      | Some (w3, ev3) =>
                          let (m4, er) := snapshot (w_mem w3) child in
                          let (ended, roots) := (er : bool * list ptr) in
                          match export_entries k roots (World m4 (w_gs w3)) ev3 with
                          | None => None
                          | Some (w5, ev5, xs2) =>
                              rest w5 ev5 (X None (negb ended) (e_args e) (e_res e) (xs ++ xs2))
                          end
                      end
                  end
              end
          end
      end
  end.

(** Export (export.go:12-24). *)
Definition export (fuel : nat) (s : sid) (w : world) (ev : env) : option (world * env * list xtree) :=
  match env_step w ev with
  | None => None
  | Some (w1, ev1) =>
      let (m2, er) := snapshot (w_mem w1) s in
      export_entries fuel (snd er) (World m2 (w_gs w1)) ev1
  end.
