(** * Model of the sessions of the test explorer (support/session/session.go) *)
From Coq Require Import Ascii String List Arith Bool Lia.
From Verif Require Import M_Str M_Instrument.
Import ListNotations.
Open Scope nat_scope. Open Scope list_scope.

Section Session.
(** An event (an interface{} value). *)
Variable E : Type.

(** One goroutine serving one call; a page sends each request from a goroutine of its own (net/http). *)
Inductive thread :=
| Start0 (clock : bytes)                 (* 68: Start is called; [clock]: time.Now().Format(..) as read by it *)
| Start1 (clock : bytes) (n : nat)       (* after 70: the counter has been read *)
| Sending (c : nat) (todo : list E)      (* 32-37 SendEvents *)
| Poll0 (id : bytes)                     (* 78 Get, then 39 PollEvents *)
| Polling (c : nat) (events : list E) (timeout : bool)   (* 44-61; timeout: timeoutCh can be received from *)
| Destroy0 (id : bytes)                  (* 87-90 *)
| Done.
(** nextID; the sync.Map; the channels made so far (73: capacity 100), oldest first. *)
Record world := { next : nat; mapping : list (bytes * nat); chans : list (list E); threads : list thread }.
(** 73 *)
Definition capacity : nat := 100.
(** What a step shows outside: the n-th thread sends or receives an event on a channel, returns from a call. *)
Inductive label :=
| LStarted (t : nat) (id : bytes) (c : nat)
| LSend (t c : nat) (e : E)
| LSent (t c : nat)                              (* SendEvents returns *)
| LGot (t : nat) (id : bytes) (r : option nat)   (* Get returns the session or an error *)
| LRecv (t c : nat) (e : E)
| LPolled (t c : nat) (events : list E) (timeout : bool)   (* PollEvents returns *)
| LDestroyed (t : nat) (id : bytes)
| LCall (t : nat) (x : thread)                   (* a call begins *)
| LInner.
Definition put {A} (l : list A) (i : nat) (x : A) : list A := firstn i l ++ x :: skipn (S i) l.
(** sync.Map: Load, Store, Delete. *)
Fixpoint load (m : list (bytes * nat)) (id : bytes) : option nat :=
  match m with [] => None | (k, c) :: r => if eqs k id then Some c else load r id end.
Definition store (m : list (bytes * nat)) (id : bytes) (c : nat) : list (bytes * nat) := (id, c) :: m.
Definition delete (m : list (bytes * nat)) (id : bytes) : list (bytes * nat) := filter (fun kc => negb (eqs (fst kc) id)) m.
(** 71 *)
Definition session_id (clock : bytes) (n : nat) : bytes := #"session_" ++ clock ++ #"_" ++ itoa n.
Definition setw (w : world) (i : nat) (x : thread) : world :=
  {| next := next w; mapping := mapping w; chans := chans w; threads := put (threads w) i x |}.
Inductive wstep : world -> label -> world -> Prop :=
| w_call w x :                                                        (* a request arrives, or a run sends an event *)
    match x with Start0 _ | Poll0 _ | Destroy0 _ => True | Sending c _ => c < length (chans w) | _ => False end ->
    wstep w (LCall (length (threads w)) x) {| next := next w; mapping := mapping w; chans := chans w; threads := threads w ++ [x] |}
| w_count w i k :                                                     (* 70 atomic.AddInt64 *)
    nth_error (threads w) i = Some (Start0 k) ->
    wstep w LInner {| next := S (next w); mapping := mapping w; chans := chans w; threads := put (threads w) i (Start1 k (S (next w))) |}
| w_store w i k n :                                                   (* 71-76 *)
    nth_error (threads w) i = Some (Start1 k n) ->
    wstep w (LStarted i (session_id k n) (length (chans w)))
      {| next := next w; mapping := store (mapping w) (session_id k n) (length (chans w)); chans := chans w ++ [[]]; threads := put (threads w) i Done |}
| w_send w i c e todo q :                                             (* 33-34: waits while the channel is full *)
    nth_error (threads w) i = Some (Sending c (e :: todo)) -> nth_error (chans w) c = Some q -> length q < capacity ->
    wstep w (LSend i c e) {| next := next w; mapping := mapping w; chans := put (chans w) c (q ++ [e]); threads := put (threads w) i (Sending c todo) |}
| w_sent w i c :                                                      (* 36 *)
    nth_error (threads w) i = Some (Sending c []) -> wstep w (LSent i c) (setw w i Done)
| w_get w i id c :                                                    (* 79-84; 45-47 *)
    nth_error (threads w) i = Some (Poll0 id) -> load (mapping w) id = Some c ->
    wstep w (LGot i id (Some c)) (setw w i (Polling c [] false))
| w_missing w i id :                                                  (* 80-82 *)
    nth_error (threads w) i = Some (Poll0 id) -> load (mapping w) id = None ->
    wstep w (LGot i id None) (setw w i Done)
| w_recv w i c ev t e q :                                             (* 50-51 *)
    nth_error (threads w) i = Some (Polling c ev t) -> nth_error (chans w) c = Some (e :: q) ->
    wstep w (LRecv i c e) {| next := next w; mapping := mapping w; chans := put (chans w) c q; threads := put (threads w) i (Polling c (ev ++ [e]) t) |}
| w_timer w i c ev :                                                  (* 47: the 5 seconds have passed *)
    nth_error (threads w) i = Some (Polling c ev false) -> wstep w LInner (setw w i (Polling c ev true))
| w_timeout w i c ev :                                                (* 52-53 *)
    nth_error (threads w) i = Some (Polling c ev true) -> wstep w (LPolled i c ev true) (setw w i Done)
| w_default w i c e ev :                                              (* 54-57: nothing to receive and no timeout *)
    nth_error (threads w) i = Some (Polling c (e :: ev) false) -> nth_error (chans w) c = Some [] ->
    wstep w (LPolled i c (e :: ev) false) (setw w i Done)
| w_sleep w i c :                                                     (* 58 *)
    nth_error (threads w) i = Some (Polling c [] false) -> nth_error (chans w) c = Some [] -> wstep w LInner w
| w_delete w i id :                                                   (* 88-89 *)
    nth_error (threads w) i = Some (Destroy0 id) ->
    wstep w (LDestroyed i id) {| next := next w; mapping := delete (mapping w) id; chans := chans w; threads := put (threads w) i Done |}.
(** 19-21 *)
Definition world0 : world := {| next := 0; mapping := []; chans := []; threads := [] |}.
End Session.
Arguments world {E}. Arguments next {E}. Arguments mapping {E}. Arguments chans {E}. Arguments threads {E}.
Arguments wstep {E}. Arguments world0 {E}.
Arguments LStarted {E}. Arguments LSend {E}. Arguments LSent {E}. Arguments LGot {E}. Arguments LRecv {E}. Arguments LPolled {E}. Arguments LDestroyed {E}. Arguments LCall {E}. Arguments LInner {E}.
Arguments Start0 {E}. Arguments Start1 {E}. Arguments Sending {E}. Arguments Poll0 {E}. Arguments Polling {E}. Arguments Destroy0 {E}. Arguments Done {E}.
