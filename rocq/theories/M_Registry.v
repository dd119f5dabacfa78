(** * Model of the mock / recorder / interceptor registry of xgo's runtime.

    Sources (all under /repo):
    - runtime/internal/trap/{mock,record,interceptor,stack_data,init,trap}.go
    - runtime/internal/stack/g.go
    - runtime/internal/runtime/{g.go,xgo_trap_template.go}  *)
From Coq Require Import List Arith Bool Lia.
Import ListNotations.

(** The seven registration tables of [interceptorHolders]
    (runtime/internal/trap/stack_data.go:27-40).  The first six are maps keyed
    by a pc or a variable address, the last one is a single list. *)
Inductive name :=
| Mock (pc : nat) | VarMock (addr : nat) | VarPtrMock (addr : nat)
| Rec (pc : nat) | VarRec (addr : nat) | VarPtrRec (addr : nat)
| Inter.

Definition name_eqb (a b : name) : bool :=
  match a, b with
  | Mock x, Mock y | VarMock x, VarMock y | VarPtrMock x, VarPtrMock y
  | Rec x, Rec y | VarRec x, VarRec y | VarPtrRec x, VarPtrRec y => x =? y
  | Inter, Inter => true
  | _, _ => false
  end.

(** A registered holder: [mockHolder] (mock.go:34-37), [varMockHolder]
    (mock.go:39-41), [recorderHolder] and [varRecordHolder]
    (stack_data.go:70-79).
    - [h_id] is the identity of the pointer: [Some c] for the holder allocated
      by the registration whose cancel function is number [c], [None] for a
      holder allocated by a clone (no cancel function captured it, so it is
      never pointer-equal to a captured one).
    - [h_want] is wantRecvPtr, dereferenced (see [same_receiver]).
    - [h_beh] stands for the handler function(s). *)
Record holder := Holder { h_id : option nat; h_want : option nat; h_beh : nat }.

(** [interceptorHolders] (stack_data.go:27-40); a nil map reads as empty. *)
Definition table := name -> list holder.
Definition empty_table : table := fun _ => [].
Definition tset (t : table) (n : name) (l : list holder) : table :=
  fun m => if name_eqb n m then l else t m.

(** A [stack.Stack] together with its [StackData] (stack_data.go:15-25).
    Simplification: one heap cell, because every site that creates a stack
    attaches a StackData to it (stack_data.go:46-68, init.go:39-40,
    trap.go:117-127).  The trace tree itself is modelled in M_Stack. *)
Record sobj := SObj { s_table : table; s_tracing : bool }.

(** A runtime.g slot with its [__xgo_g] (runtime/internal/runtime/
    xgo_trap_template.go:80-84): whether a goroutine lives in it, the stack
    stored in its gls under gStackKey (stack/g.go:41-71), and the pending
    "post" closures of trace.Trace calls, remembering isStartTracing
    (trap.go:338-448). *)
Record slot := Slot { g_live : bool; g_stack : option nat; g_frames : list bool }.
Definition zero_slot : slot := Slot false None [].

(** What a returned cancel function captured (mock.go:170-200): the holder
    structure (the global one or that of a stack), the table entry, and the
    registered pointer (its number is its position in [w_cancels]). *)
Inductive href := HGlobal | HStack (sp : nat).
Record closure := Closure { c_ref : href; c_name : name }.

Record world := World {
  w_init : bool;            (* __xgo_is_init_finished *)
  w_global : table;         (* globalInterceptorHolder, stack_data.go:13 *)
  w_slots : nat -> slot;
  w_heap : nat -> sobj;     (* allocated stacks *)
  w_next : nat;             (* next free heap address *)
  w_cancels : list closure  (* cancel functions handed out, oldest first *)
}.

Definition upd {A} (f : nat -> A) (i : nat) (v : A) : nat -> A :=
  fun j => if i =? j then v else f j.

(** Program start: main runs in slot 0, packages are being initialised. *)
Definition w0 : world :=
  World false empty_table (upd (fun _ => zero_slot) 0 (Slot true None []))
        (fun _ => SObj empty_table false) 0 [].

(** API-level operations.  The acting goroutine is named by its slot. *)
Inductive op :=
| OInitDone                                   (* package init has finished *)
| OPush (g : nat) (n : name) (want : option nat) (beh : nat)
| OCancel (c : nat)                           (* call cancel function number c *)
| OGo (g s : nat)                             (* g executes a go statement; the new goroutine gets slot s *)
| OExit (g : nat)
| OTraceBegin (g : nat) (sink : bool)         (* entry of trace.Trace; sink = OutputFile or OnFinish set *)
| OTraceEnd (g : nat).                        (* the deferred post of the innermost pending trace.Trace *)

Inductive outcome := Ok | Panicked.

(** Only function mocks and recorders carry a receiver: pushMockHandler
    (mock.go:179), PushRecordHandler (record.go:149); the variable
    and interceptor holders have no such field set (mock.go:211,243, record.go:181,213,
    interceptor.go:49). *)
Definition bound (n : name) (want : option nat) : option nat :=
  match n with Mock _ | Rec _ => want | _ => None end.

(** (g G) GetOrAttachStack after init (stack/g.go:55-71) followed by
    getOrAttachStackDataOf (stack_data.go:59-68). *)
Definition get_or_attach (w : world) (g : nat) : world * nat :=
  let sl := w_slots w g in
  match g_stack sl with
  | Some sp => (w, sp)
  | None =>
      let sp := w_next w in
      (World (w_init w) (w_global w)
             (upd (w_slots w) g (Slot (g_live sl) (Some sp) (g_frames sl)))
             (upd (w_heap w) sp (SObj empty_table false))
             (S sp) (w_cancels w), sp)
  end.

Definition set_heap_table (w : world) (sp : nat) (t : table) : world :=
  World (w_init w) (w_global w) (w_slots w)
        (upd (w_heap w) sp (SObj t (s_tracing (w_heap w sp)))) (w_next w) (w_cancels w).
Definition set_global (w : world) (t : table) : world :=
  World (w_init w) t (w_slots w) (w_heap w) (w_next w) (w_cancels w).
Definition set_slot (w : world) (g : nat) (sl : slot) : world :=
  World (w_init w) (w_global w) (upd (w_slots w) g sl) (w_heap w) (w_next w) (w_cancels w).
Definition set_heap (w : world) (sp : nat) (o : sobj) : world :=
  World (w_init w) (w_global w) (w_slots w) (upd (w_heap w) sp o) (w_next w) (w_cancels w).
Definition add_cancel (w : world) (c : closure) : world :=
  World (w_init w) (w_global w) (w_slots w) (w_heap w) (w_next w) (w_cancels w ++ [c]).

(** pushMockHandler (mock.go:170-180), pushVarMockHandler (202-212),
    pushVarPtrMockHandler (234-244), PushRecordHandler (record.go:140-150),
    PushVarRecordHandler (172-182), PushVarPtrRecordHandler (204-214),
    pushInterceptor (interceptor.go:38-50): choose the global holder before init
    has finished, else the current goroutine's, and append. *)
Definition push (w : world) (g : nat) (n : name) (want : option nat) (beh : nat) : world :=
  let h := Holder (Some (length (w_cancels w))) (bound n want) beh in
  if w_init w then
    let (w1, sp) := get_or_attach w g in
    let t := s_table (w_heap w1 sp) in
    add_cancel (set_heap_table w1 sp (tset t n (t n ++ [h]))) (Closure (HStack sp) n)
  else
    add_cancel (set_global w (tset (w_global w) n (w_global w n ++ [h]))) (Closure HGlobal n).

Definition is_id (c : nat) (h : holder) : bool :=
  match h_id h with Some d => c =? d | None => false end.

(** The loop removing at some index (mock.go:192-198 and its six copies);
    [None] is the final panic. *)
Fixpoint remove_first (c : nat) (l : list holder) : option (list holder) :=
  match l with
  | [] => None
  | h :: r => if is_id c h then Some r
              else match remove_first c r with Some r' => Some (h :: r') | None => None end
  end.

(** The list part of a cancel function (mock.go:185-198): [list[n-1]] with
    n = 0 is an index-out-of-range panic; pop if the last one is ours. *)
Definition cancel_list (c : nat) (l : list holder) : option (list holder) :=
  match rev l with
  | [] => None
  | lst :: _ => if is_id c lst then Some (removelast l) else remove_first c l
  end.

(** A cancel function (mock.go:181-199): refuses global registrations after
    init has finished. *)
Definition cancel (w : world) (c : nat) (cl : closure) : world * outcome :=
  match c_ref cl with
  | HGlobal =>
      if w_init w then (w, Panicked)
      else match cancel_list c (w_global w (c_name cl)) with
           | Some l => (set_global w (tset (w_global w) (c_name cl) l), Ok)
           | None => (w, Panicked)
           end
  | HStack sp =>
      let t := s_table (w_heap w sp) in
      match cancel_list c (t (c_name cl)) with
      | Some l => (set_heap_table w sp (tset t (c_name cl) l), Ok)
      | None => (w, Panicked)
      end
  end.

(** cloneFuncMocks keeps wantRecvPtr (init.go:72-88); cloneVarMocks
    (init.go:90-105); cloneFuncRecordMapping, cloneVarRecordMapping and
    cloneRecorderList copy only pre and post (init.go:107-153). *)
Definition clone_holder (n : name) (h : holder) : holder :=
  match n with
  | Mock _ => Holder None (h_want h) (h_beh h)
  | _ => Holder None None (h_beh h)
  end.
Definition clone_table (t : table) : table := fun n => map (clone_holder n) (t n).

(** __xgo_callback_on_create_g zeroes the new slot (xgo_trap_template.go:257-279)
    and runs inerhitStack (init.go:29-70).
    Simplification: before init has finished every goroutine shares InitGStack,
    whose tables stay empty (pushes go to the global holder), so nothing is
    modelled for that case. *)
Definition go (race_safe : bool) (w : world) (g s : nat) : world :=
  let w1 := set_slot w s (Slot true None []) in
  if race_safe then w1
  else if negb (w_init w) then w1
  else match g_stack (w_slots w g) with
       | None => w1
       | Some cur =>
           let (w2, sp) := get_or_attach w1 s in
           set_heap w2 sp (SObj (clone_table (s_table (w_heap w cur)))
                                (s_tracing (w_heap w cur)))
       end.

(** The entry of trace.Trace as seen by trap (trap.go:81-131, 262-306), at
    trapping depth 1 and after init.  The boolean pushed on [g_frames] is
    isStartTracing of the "post" closure that will run. *)
Definition trace_begin (w : world) (g : nat) (sink : bool) : world :=
  let sl := w_slots w g in
  match g_stack sl with
  | None =>
      let sp := w_next w in
      let w1 := World (w_init w) (w_global w) (w_slots w)
                      (upd (w_heap w) sp (SObj empty_table true)) (S sp) (w_cancels w) in
      if sink then set_slot w1 g (Slot (g_live sl) (Some sp) (true :: g_frames sl))
      else (* stackAttached, no sink: Detach, no tracing post (trap.go:300-305) *)
        set_slot w1 g (Slot (g_live sl) None (false :: g_frames sl))
  | Some sp =>
      if s_tracing (w_heap w sp)
      then (* nested Trace: an ordinary traced call *)
        set_slot w g (Slot (g_live sl) (Some sp) (false :: g_frames sl))
      else
        let w1 := set_heap w sp (SObj (s_table (w_heap w sp)) true) in
        set_slot w1 g (Slot (g_live sl) (Some sp) (sink :: g_frames sl))
  end.

(** The end of the post closure: if isStartTracing, stack.Detach()
    (trap.go:421-447, stack/g.go:25-27). *)
Definition trace_end (w : world) (g : nat) (starting : bool) (rest : list bool) : world :=
  let sl := w_slots w g in
  set_slot w g (Slot (g_live sl) (if starting then None else g_stack sl) rest).

(** One operation.  [None] means the operation is not possible in this state
    (acting goroutine not running, slot occupied, unknown cancel function). *)
Definition step (race_safe : bool) (w : world) (o : op) : option (world * outcome) :=
  match o with
  | OInitDone =>
      if w_init w then None
      else Some (World true (w_global w) (w_slots w) (w_heap w) (w_next w) (w_cancels w), Ok)
  | OPush g n want beh =>
      if g_live (w_slots w g) then Some (push w g n want beh, Ok) else None
  | OCancel c =>
      match nth_error (w_cancels w) c with
      | None => None
      | Some cl => Some (cancel w c cl)
      end
  | OGo g s =>
      if g_live (w_slots w g) && negb (g_live (w_slots w s))
      then Some (go race_safe w g s, Ok) else None
  | OExit g =>
      (* __xgo_callback_on_exit_g clears the slot (xgo_trap_template.go:238-255) *)
      if g_live (w_slots w g) then Some (set_slot w g zero_slot, Ok) else None
  | OTraceBegin g sink =>
      if g_live (w_slots w g) && w_init w then Some (trace_begin w g sink, Ok) else None
  | OTraceEnd g =>
      match g_live (w_slots w g), g_frames (w_slots w g) with
      | true, b :: rest => Some (trace_end w g b rest, Ok)
      | _, _ => None
      end
  end.

(** A history is a list of operations, newest first. *)
Fixpoint run (race_safe : bool) (h : list op) : option world :=
  match h with
  | [] => Some w0
  | o :: h' => match run race_safe h' with
               | None => None
               | Some w => match step race_safe w o with
                           | Some (w', _) => Some w'
                           | None => None
                           end
               end
  end.

(** Outcome of one more operation after a history. *)
Definition outcome_of (race_safe : bool) (h : list op) (o : op) : option outcome :=
  match run race_safe h with
  | None => None
  | Some w => match step race_safe w o with Some (_, r) => Some r | None => None end
  end.

(** ** Observations: what trap finds for a call *)

(** c.interceptors.X[key] of the current goroutine, nil StackData reads as
    empty (stack_data.go:82-85 etc.). *)
Definition local_list (w : world) (g : nat) (n : name) : list holder :=
  match g_stack (w_slots w g) with
  | None => []
  | Some sp => s_table (w_heap w sp) n
  end.

Definition last_opt {A} (l : list A) : option A :=
  match rev l with [] => None | x :: _ => Some x end.

(** getLastMock, getLastVarMock, getLastVarPtrMock (stack_data.go:81-124). *)
Definition last_mock (w : world) (g : nat) (n : name) : option holder :=
  let l := local_list w g n in
  match l with
  | [] => last_opt (w_global w n)
  | _ => last_opt l
  end.

(** getRecordHandlers, getVarRecordHandlers, getVarPtrRecordHandlers,
    getGeneralInterceptors (stack_data.go:126-196). *)
Definition handlers (w : world) (g : nat) (n : name) : list holder :=
  match local_list w g n, w_global w n with
  | (_ :: _) as l, (_ :: _) as gl => l ++ gl
  | (_ :: _) as l, [] => l
  | [], gl => gl
  end.

(** sameReceiver on comparable receivers (mock.go:363-368): equality of the
    dereferenced interface values, here numbers. *)
Definition recv_ok (want recv : option nat) : bool :=
  match want with
  | None => true
  | Some p => match recv with None => false | Some q => p =? q end
  end.

(** The mock applied to a call of function pc on receiver recv
    (trap.go:138, 152-154). *)
Definition applied_mock (w : world) (g pc : nat) (recv : option nat) : option holder :=
  match last_mock w g (Mock pc) with
  | Some h => if recv_ok (h_want h) recv then Some h else None
  | None => None
  end.

(** The recorders invoked for a call (trap.go:139, 158-161). *)
Definition applied_recorders (w : world) (g pc : nat) (recv : option nat) : list holder :=
  filter (fun h => recv_ok (h_want h) recv) (handlers w g (Rec pc)).

(** hasStartedTracing of the goroutine (trap.go:79). *)
Definition tracing (w : world) (g : nat) : bool :=
  match g_stack (w_slots w g) with
  | None => false
  | Some sp => s_tracing (w_heap w sp)
  end.
