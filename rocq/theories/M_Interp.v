(** * A single goroutine running an instrumented program (C09, C11).

    Programs consist of calls of intercepted functions, panics, recovers and
    defers; the handlers (recorders, interceptors, mocks) are programs too and
    may call intercepted functions.  Sources: runtime/internal/trap/trap.go
    (trap), instrument/instrument_func/func_template.go:4 (the inserted
    prologue), runtime/internal/runtime/xgo_trap_template.go:96-105
    (XgoPeekPanic), runtime/trace/trace.go (Trace), stack.go through M_Stack.

    Simplifications: arguments, results, receivers (see M_Dispatch, M_Registry)
    and time are left out; registrations do not change while the program runs
    (except that detaching the stack data loses the local ones); FilterTrace,
    OnFinish and writing the output file are not programs; test trace
    collection (COLLECT_TEST_TRACE) and goroutine creation are left out. *)
From Coq Require Import List Arith Bool ZArith Lia.
From Verif Require Import M_Stack.
Import ListNotations.

Inductive stmt :=
| SCall (f : nat)                          (* call of intercepted function f *)
| SPanic                                   (* panic(...) *)
| STry (b : list stmt)                     (* func(){ defer func(){recover()}(); b }() *)
| SFinally (b fin : list stmt).            (* func(){ defer func(){fin}(); b }() *)

(** recorderHolder (stack_data.go:70-74): pre returns stop; pre/post may be nil. *)
Record handler := Handler {
  h_id : nat; h_pre : option (list stmt * bool); h_post : option (list stmt)
}.

(** mockHolder: the mock's code and what it returns. *)
Definition mock := (list stmt * bool)%type.

(** trace.Config: has a sink (OutputFile or OnFinish); FilterTrace. *)
Record cfg := Cfg { c_sink : bool; c_filter : nat -> bool }.

(** The program: function bodies, which functions are calls of trace.Trace (the
    traced closure being the body), and the registrations: local ones (in the
    goroutine's stack data) and global ones (made before init finished). *)
Record prog := Prog {
  p_body : nat -> list stmt;
  p_trace : nat -> option cfg;
  p_lmock : nat -> option mock; p_gmock : nat -> option mock;
  p_lrec : nat -> list handler; p_grec : nat -> list handler;
  p_lint : list handler; p_gint : list handler
}.

(** Observable events: a handler starts / ends (a recorder or interceptor pre or
    post, or a mock), a general interceptor is about to be invoked, the original
    body starts, an export is delivered. *)
Inductive event := EOpen | EClose | EGeneral (id : nat) | EBody (f : nat) | EExport (xs : list xtree).

(** StackData (stack_data.go:15-26); [d_local]: holds the local registrations. *)
Record sdata := SData { d_tracing : bool; d_filter : nat -> bool; d_local : bool }.

Record st := St {
  trapping : nat;                   (* trappingDepth of the goroutine *)
  cur : option (sid * sdata);       (* attached stack and its data *)
  mm : mem;
  log : list event                  (* oldest first *)
}.

Definition set_trap (n : nat) (s : st) := St n (cur s) (mm s) (log s).
Definition set_cur c (s : st) := St (trapping s) c (mm s) (log s).
Definition set_mm m (s : st) := St (trapping s) (cur s) m (log s).
Definition emit e (s : st) := St (trapping s) (cur s) (mm s) (log s ++ [e]).
Definition inc (s : st) := set_trap (S (trapping s)) s.
Definition dec (s : st) := set_trap (pred (trapping s)) s.

(** What trap returns: the deferred post function, in defunctionalised form. *)
Inductive post :=
| PNil
| PRecorder (wrapped : bool) (thunks : list (bool * handler))  (* callRecorderWithDepth / postRecorder *)
| PTrace (thunks : list (bool * handler)) (k : sid) (e : ptr) (old : option ptr) (start : option bool).
   (* trap.go:333-448; start: isStartTracing and its sink *)

Inductive outcome := Ok (p : post) (stop : bool) | Panicked.

Section Exec.
  Variable P : prog.
  (** The interpreter one level of fuel down: (is a panic in progress?) program state. *)
  Variable rec : bool -> list stmt -> st -> option (st * bool).

  Definition local (s : st) : bool := match cur s with Some (_, d) => d_local d | None => false end.
  Definition recorders (s : st) (f : nat) : list handler := (if local s then p_lrec P f else []) ++ p_grec P f.
  Definition interceptors (s : st) : list handler := (if local s then p_lint P else []) ++ p_gint P.
  (** getLastMock (stack_data.go:82-96). *)
  Definition the_mock (s : st) (f : nat) : option mock :=
    match (if local s then p_lmock P f else None) with Some m => Some m | None => p_gmock P f end.

  (** Running user code of a handler, bracketed by events. *)
  Definition run_handler (pk general : bool) (id : nat) (b : list stmt) (s : st) : option (st * bool) :=
    let s := if general then emit (EGeneral id) s else s in
    match rec pk b (emit EOpen s) with
    | None => None
    | Some (s', p) => Some (emit EClose s', p)
    end.

  (** One of the two pre loops (trap.go:157-175, 177-196): result, stop flag,
      number of post closures created; the closures capture the loop variable,
      which ends as the last holder visited (go 1.14 semantics, see M_Dispatch). *)
  Fixpoint pre_loop (pk general : bool) (hs : list handler) (s : st) (nthunks : nat) (var : option handler)
    : option (st * (bool * bool) * nat * option handler) :=   (* (panicked, stop) *)
    match hs with
    | [] => Some (s, (false, false), nthunks, var)
    | h :: r =>
        match h_pre h with
        | None => pre_loop pk general r s (match h_post h with Some _ => S nthunks | None => nthunks end) (Some h)
        | Some (b, stop) =>
            match run_handler pk general (h_id h) b s with
            | None => None
            | Some (s', true) => Some (s', (true, false), nthunks, Some h)
            | Some (s', false) =>
                if stop then Some (s', (false, true), nthunks, Some h)
                else pre_loop pk general r s' (match h_post h with Some _ => S nthunks | None => nthunks end) (Some h)
            end
        end
    end.

  Definition thunks_of (general : bool) (n : nat) (var : option handler) : list (bool * handler) :=
    match var with None => [] | Some h => repeat (general, h) n end.

  (** Running the post closures (last created first; trap.go:197-209); calling a
      nil post function panics. *)
  Fixpoint run_posts (pk : bool) (ts : list (bool * handler)) (s : st) : option (st * bool) :=
    match ts with
    | [] => Some (s, false)
    | (general, h) :: r =>
        match h_post h with
        | None => Some (s, true)
        | Some b =>
            match run_handler pk general (h_id h) b s with
            | None => None
            | Some (s', true) => Some (s', true)
            | Some (s', false) => run_posts pk r s'
            end
        end
    end.

  Definition wrap_posts (ts : list (bool * handler)) : post :=
    match ts with [] => PNil | _ => PRecorder true ts end.

  (** The mock call (trap.go:232-234, 243-245, 452-453). *)
  Definition call_mock (pk : bool) (m : option mock) (s : st) (ok_post : post) : option (st * outcome) :=
    match m with
    | None => Some (s, Ok ok_post false)
    | Some (b, ok) =>
        match run_handler pk false 0 b s with
        | None => None
        | Some (s', true) => Some (s', Panicked)
        | Some (s', false) => Some (s', Ok ok_post ok)
        end
    end.

  (** trap (trap.go:33-456) after the depth increment (line 62); the deferred
      decrement is in [trap_fn]. *)
  Definition trap_body (pk : bool) (f : nat) (s0 : st) : option (st * outcome) :=
    let depth := trapping s0 in
    let tracing0 := match cur s0 with Some (_, d) => d_tracing d | None => false end in
    (* trap.go:82-131: start tracing *)
    let starting := match p_trace P f with
                    | Some c => if (depth <=? 1) && negb tracing0 then Some c else None
                    | None => None
                    end in
    let attached := match starting, cur s0 with Some _, None => true | _, _ => false end in
    let s1 := match starting with
              | None => s0
              | Some _ =>
                  match cur s0 with
                  | None => (* fresh stack and data, trap.go:108-127 *)
                      St (trapping s0) (Some (length (stacks (mm s0)), SData true (fun _ => true) false))
                         (Mem (heap (mm s0)) (stacks (mm s0) ++ [new_stack])) (log s0)
                  | Some (k, d) => set_cur (Some (k, SData true (d_filter d) (d_local d))) s0
                  end
              end in
    let tracing := match starting with Some _ => true | None => tracing0 end in
    let m := the_mock s1 f in
    let ints := if depth <=? 1 then interceptors s1 else [] in
    match pre_loop pk false (recorders s1 f) s1 0 None with
    | None => None
    | Some (s2, (true, _), _, _) => Some (s2, Panicked)
    | Some (s2, (false, stop1), n1, v1) =>
        match (if stop1 then Some (s2, (false, false), 0, None) else pre_loop pk true ints s2 0 None) with
        | None => None
        | Some (s3, (true, _), _, _) => Some (s3, Panicked)
        | Some (s3, (false, stop2), n2, v2) =>
            let mocked := stop1 || stop2 in
            let ts := rev (thunks_of false n1 v1 ++ thunks_of true n2 v2) in
            (* trap.go:211-214; stackData was read at the beginning *)
            let allow := tracing && match cur s1 with Some (_, d) => d_filter d f | None => true end in
            if negb mocked && (1 <? depth) then call_mock pk m s3 (wrap_posts ts)
            else if negb allow then
              (if mocked then Some (s3, Ok (wrap_posts ts) true) else call_mock pk m s3 (wrap_posts ts))
            else
              match cur s1 with
              | None => Some (s3, Ok (wrap_posts ts) mocked)   (* cannot happen: tracing implies data *)
              | Some (k, d) =>
                  (* trap.go:260-307 *)
                  let s4 := match starting with
                            | Some c => set_cur (Some (k, SData (d_tracing d) (c_filter c) (d_local d))) s3
                            | None => s3
                            end in
                  if match starting with Some c => negb (c_sink c) | None => false end then
                    Some (if attached then set_cur None s4 else s4,
                          Ok (match ts with [] => PNil | _ => PRecorder false ts end) false)
                  else
                    (* trap.go:325: PushNew *)
                    match push_new (mm s4) k f 0 with
                    | (m', (e, old)) =>
                        let s5 := set_mm m' s4 in
                        let p := PTrace ts k e old (option_map c_sink starting) in
                        if mocked then Some (s5, Ok p true) else call_mock pk m s5 p
                    end
              end
        end
    end.

  Definition trap_fn (pk : bool) (f : nat) (s : st) : option (st * outcome) :=
    match trap_body pk f (inc s) with
    | None => None
    | Some (s', o) => Some (dec s', o)
    end.

  (** The post function (deferred by the prologue).  [pk]: g._panic is set. *)
  Definition post_fn (pk : bool) (p : post) (s : st) : option (st * bool) :=
    match p with
    | PNil => Some (s, false)
    | PRecorder wrapped ts =>
        match run_posts pk ts (if wrapped then inc s else s) with
        | None => None
        | Some (s', r) => Some (if wrapped then dec s' else s', r)
        end
    | PTrace ts k e old start =>
        match run_posts pk ts (inc s) with
        | None => None
        | Some (s', true) => Some (dec s', true)
        | Some (s', false) =>
            (* Finish, trap.go:408-420: Panic is what XgoPeekPanic says *)
            let m := finish (mm s') k e old (match start with Some _ => true | None => false end) 0 pk in
            let s2 := set_mm m s' in
            match start with
            | None => Some (dec s2, false)
            | Some _ =>
                (* Export and Detach, trap.go:421-446 *)
                match export (S (length (heap m) * 2)) k (World m []) [] with
                | None => None
                | Some (w, _, xs) => Some (dec (set_cur None (emit (EExport xs) (set_mm (w_mem w) s2))), false)
                end
            end
        end
    end.

  (** A call of f: the prologue, the body, the deferred post.  A panic in the
      deferred post replaces whatever happened. *)
  Definition call_fn (pk : bool) (f : nat) (s : st) : option (st * bool) :=
    match trap_fn pk f s with
    | None => None
    | Some (s1, Panicked) => Some (s1, true)
    | Some (s1, Ok p stop) =>
        match (if stop then Some (s1, false) else rec pk (p_body P f) (emit (EBody f) s1)) with
        | None => None
        | Some (s2, r) =>
            match post_fn (pk || r) p s2 with
            | None => None
            | Some (s3, r') => Some (s3, r || r')
            end
        end
    end.
End Exec.

(** [exec fuel P pk l s]: None when the fuel is exhausted; the boolean tells
    whether the statements panicked. *)
Fixpoint exec (fuel : nat) (P : prog) (pk : bool) (l : list stmt) (s : st) : option (st * bool) :=
  match fuel with
  | 0 => None
  | S n =>
      match l with
      | [] => Some (s, false)
      | x :: r =>
          match
            (match x with
             | SCall f => call_fn P (exec n P) pk f s
             | SPanic => Some (s, true)
             | STry b => match exec n P pk b s with None => None | Some (s', _) => Some (s', false) end
             | SFinally b fin =>
                 match exec n P pk b s with
                 | None => None
                 | Some (s1, p1) =>
                     match exec n P (pk || p1) fin s1 with
                     | None => None
                     | Some (s2, p2) => Some (s2, p1 || p2)
                     end
                 end
             end)
          with
          | None => None
          | Some (s', true) => Some (s', true)
          | Some (s', false) => exec n P pk r s'
          end
      end
  end.

(** A goroutine before anything is intercepted: no stack attached, or a fresh
    stack holding local registrations. *)
Definition init_st (with_local : bool) : st :=
  if with_local
  then St 0 (Some (0, SData false (fun _ => true) true)) (Mem [] [new_stack]) []
  else St 0 None (Mem [] []) [].
