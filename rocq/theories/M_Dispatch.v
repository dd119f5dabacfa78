(** * Model of the dispatch of one intercepted call or variable read
    (runtime/internal/trap/trap.go and var.go), for given handler lists.

    Handlers are data here: what a pre handler returns and whether the optional
    functions are present.  (Handlers that themselves make intercepted calls are
    modelled in M_Interp.)  *)
From Coq Require Import List Arith Bool Lia.
Import ListNotations.

(** recorderHolder / varRecordHolder (stack_data.go:70-79).  [d_pre] is None
    when pre is nil, else the (data, stop) it returns; [d_post] tells whether
    post is non-nil. *)
Record hnd := Hnd { d_id : nat; d_want : option nat; d_pre : option (nat * bool); d_post : bool }.

(** What is observable of a dispatch. *)
Inductive event :=
| EPre (id : nat)                      (* pre handler of holder id invoked *)
| EPost (id : nat) (data : option nat) (* post handler of holder id invoked with data (None = nil) *)
| ENilCall                             (* call of a nil function: the program panics *)
| EMock                                (* the mock function invoked *)
| EBody.                               (* the original body runs *)

(** Language semantics of a [for _, h := range] variable captured by a closure:
    one variable per loop before Go 1.22 (runtime/go.mod says "go 1.14", so this
    is what the code is compiled with), one per iteration since Go 1.22. *)
Inductive loopvar := Shared | PerIteration.

Definition same_recv (want recv : option nat) : bool :=
  match want with
  | None => true
  | Some p => match recv with None => false | Some q => p =? q end
  end.

(** The pending post closures of one loop: (captured holder at closure
    creation, captured data).  [data] is declared inside the loop body, so it is
    per iteration in every Go version (trap.go:162,177). *)
Definition thunk := (hnd * option nat)%type.

Record loop_result := LoopResult {
  l_events : list event;       (* pre handlers invoked, in order *)
  l_thunks : list thunk;       (* in creation order *)
  l_stop : bool;               (* mocked *)
  l_var : option hnd           (* the loop variable when the loop ends *)
}.

(** The two loops of trap (trap.go:157-175 for recorders, 177-196 for
    interceptors, whose holders have no wantRecvPtr). *)
Fixpoint pre_loop (recv : option nat) (hs : list hnd) : loop_result :=
  match hs with
  | [] => LoopResult [] [] false None
  | h :: r =>
      let keep_var (x : loop_result) :=
        LoopResult (l_events x) (l_thunks x) (l_stop x)
                   (match l_var x with None => Some h | v => v end) in
      if negb (same_recv (d_want h) recv) then keep_var (pre_loop recv r)   (* continue *)
      else
        match d_pre h with
        | Some (_, true) => LoopResult [EPre (d_id h)] [] true (Some h)     (* mocked, break *)
        | p =>
            let data := match p with Some (d, _) => Some d | None => None end in
            let ev := match p with Some _ => [EPre (d_id h)] | None => [] end in
            let x := pre_loop recv r in
            keep_var (LoopResult (ev ++ l_events x)
                                 ((if d_post h then [(h, data)] else []) ++ l_thunks x)
                                 (l_stop x) (l_var x))
        end
  end.

(** Running one post closure: [h.post(..., data)] with the captured variable h. *)
Definition run_thunk (lv : loopvar) (var : option hnd) (t : thunk) : event :=
  let h := match lv with PerIteration => Some (fst t) | Shared => var end in
  match h with
  | Some h => if d_post h then EPost (d_id h) (snd t) else ENilCall
  | None => ENilCall
  end.

(** A sequence of calls is cut short by the panic of a nil call. *)
Fixpoint cut (es : list event) : list event :=
  match es with
  | [] => []
  | ENilCall :: _ => [ENilCall]
  | e :: r => e :: cut r
  end.

(** The handler part of trap: recorders, then (unless stopped) interceptors,
    posts in reverse (trap.go:155-209). *)
Record dispatch_result := DispatchResult {
  r_pres : list event;
  r_posts : list event;
  r_mocked : bool
}.

Definition dispatch (lv : loopvar) (recv : option nat) (recs inters : list hnd) : dispatch_result :=
  let a := pre_loop recv recs in
  let b := if l_stop a then LoopResult [] [] false None else pre_loop recv inters in
  DispatchResult
    (l_events a ++ l_events b)
    (cut (rev (map (run_thunk lv (l_var a)) (l_thunks a) ++
               map (run_thunk lv (l_var b)) (l_thunks b))))
    (l_stop a || l_stop b).

(** ** The decision taken by trap for a call that is not trace.Trace itself *)
Record call_state := CallState {
  cs_depth : nat;             (* trapping depth after the increment, trap.go:62 *)
  cs_inspecting : bool;       (* stackData.inspecting != nil, trap.go:73-76 *)
  cs_tracing : bool;          (* hasStartedTracing *)
  cs_allow : bool;            (* filterTrace == nil or accepts, trap.go:211-214 *)
  cs_recv : option nat;
  cs_mock : option (option nat * bool);  (* last mock: wantPtr and what it returns *)
  cs_recs : list hnd;
  cs_inters : list hnd
}.

(** trap (trap.go:31-456): events before the body, events of the returned
    post function, and the returned stop flag. *)
Definition trap (lv : loopvar) (s : call_state) : list event * list event * bool :=
  if cs_inspecting s then ([], [], true)
  else
    let inters := if cs_depth s <=? 1 then cs_inters s else [] in
    let mock := match cs_mock s with
                | Some (want, ok) => if same_recv want (cs_recv s) then Some ok else None
                | None => None
                end in
    let d := dispatch lv (cs_recv s) (cs_recs s) inters in
    if negb (r_mocked d) then
      if 1 <? cs_depth s then
        match mock with
        | Some ok => (r_pres d ++ [EMock], r_posts d, ok)
        | None => (r_pres d, r_posts d, false)
        end
      else if negb (cs_tracing s && cs_allow s) then
        match mock with
        | Some ok => (r_pres d ++ [EMock], r_posts d, ok)
        | None => (r_pres d, r_posts d, false)
        end
      else (* tracing: trap.go:310-456 *)
        match mock with
        | Some ok => (r_pres d ++ [EMock], r_posts d, ok)
        | None => (r_pres d, r_posts d, false)
        end
    else
      if negb (cs_tracing s && cs_allow s) then (r_pres d, r_posts d, true)
      else (r_pres d, r_posts d, true).

(** The inserted prologue (instrument/instrument_func/func_template.go:4):
    post, stop := trap(...); if post != nil { defer post() }; if stop { return }. *)
Definition call (lv : loopvar) (s : call_state) : list event :=
  match trap lv s with
  | (pre, post, stop) => pre ++ (if stop then [] else [EBody]) ++ post
  end.

(** ** Variable reads: doTrapVar (var.go:109-145).  The stop flag of pre
    handlers is ignored, posts run in forward order; the general interceptors
    have their own loop variable. *)
Definition var_thunks (hs : list hnd) : list event * list thunk * option hnd :=
  fold_left
    (fun acc h =>
       match acc with
       | (ev, th, _) =>
           (ev ++ (match d_pre h with Some _ => [EPre (d_id h)] | None => [] end),
            th ++ (if d_post h then [(h, option_map fst (d_pre h))] else []),
            Some h)
       end) hs ([], [], None).

Definition var_read (lv : loopvar) (mock : bool) (recs inters : list hnd) : list event :=
  match var_thunks recs, var_thunks inters with
  | (e1, t1, v1), (e2, t2, v2) =>
      cut (e1 ++ e2 ++ (if mock then [EMock] else []) ++
           map (run_thunk lv v1) t1 ++ map (run_thunk lv v2) t2)
  end.

(** ** Inspect (inspect.go:18-113): probing a method value or generic function
    by calling it once with [inspecting] set. *)
Record gstate := GState { gs_attached : bool; gs_inspecting : bool; gs_depth : nat }.

(** The probed call: trap increments and (deferred) decrements the depth
    (trap.go:62-63), and with [inspecting] set returns (nil, true) at once
    (trap.go:73-76).  [s] gives the handlers and mocks registered. *)
Definition probe_call (lv : loopvar) (g : gstate) (s : call_state) : gstate * list event :=
  let s' := CallState (S (gs_depth g)) (gs_inspecting g) (cs_tracing s) (cs_allow s)
                      (cs_recv s) (cs_mock s) (cs_recs s) (cs_inters s) in
  (GState (gs_attached g) (gs_inspecting g) (S (gs_depth g) - 1), call lv s').

(** callFn (inspect.go:81-105): attach data, set inspecting, call, reset
    (deferred). *)
Definition inspect (lv : loopvar) (g : gstate) (s : call_state) : gstate * list event :=
  let g1 := GState true true (gs_depth g) in
  let (g2, ev) := probe_call lv g1 s in
  (GState (gs_attached g2) false (gs_depth g2), ev).
