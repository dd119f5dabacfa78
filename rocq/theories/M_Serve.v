(** * Model of serving on a free port (support/netutil/netutil.go) *)
From Coq Require Import Ascii String List Arith Bool Lia ZArith.
From Verif Require Import M_Str M_Coverage.
Import ListNotations.
Open Scope nat_scope.
Open Scope list_scope.

(** The largest port number: 65535. *)
Definition max_port : nat := 255 * 257.

(** ** ServePort: 30-66, watchSignalWithinTimeout: 84-91 *)
(** One goroutine of 49-51: waiting in the select of 85-89; past it, about to call; has called; has quit. *)
Inductive wpc := WWait | WGo | WCalled | WQuit.
(** [w_timer]: the timer of 86 has run out. [w_closed]: its channel portErr is closed (58). *)
Record watcher := { w_pc : wpc; w_timer : bool; w_closed : bool }.
(** Where the function is: at the head of the loop 31; in doWithPort (54); returned. *)
Inductive outcome := Served | InUse | Failed.
Inductive spc := SLoop | SServing | SReturned (o : outcome).
(** What happens, newest last. [EBusy p]: p was found in use, by the dial of 33 or by doWithPort. *)
Inductive event := EBusy (p : nat) | EAttempt (p : nat) | EWatch (p : nat) | EReturn (o : outcome).
(** [s_port] is the variable port, which the goroutines share with the function (50 reads it when the goroutine
    runs). The newest goroutine comes first. *)
Record state := { s_port : nat; s_pc : spc; s_watchers : list watcher; s_log : list event }.
Definition init (start : nat) : state := {| s_port := start; s_pc := SLoop; s_watchers := []; s_log := [] |}.
Definition new_watcher : watcher := {| w_pc := WWait; w_timer := false; w_closed := false |}.
(** 58: closes the channel of this turn, which is that of the newest goroutine if one was started. *)
Definition close_newest (watched : bool) (l : list watcher) : list watcher :=
  if watched then match l with [] => [] | w :: r => {| w_pc := w_pc w; w_timer := w_timer w; w_closed := true |} :: r end else l.
Definition set_nth {A} (i : nat) (x : A) (l : list A) : list A := firstn i l ++ x :: skipn (S i) l.

(** The steps. [auto] is autoIncrPort, [watched] is "watchTimeout > 0 && watch != nil". The dial of 14-21 fails
    for numbers that are no ports; its answer, and how doWithPort ends, are the environment's. *)
Inductive step (auto watched : bool) : state -> state -> Prop :=
| SDialUsed st :                                     (* 37-42, autoIncrPort *)
    s_pc st = SLoop -> s_port st <= max_port -> auto = true ->
    step auto watched st {| s_port := S (s_port st); s_pc := SLoop; s_watchers := s_watchers st; s_log := s_log st ++ [EBusy (s_port st)] |}
| SDialRefuse st :                                   (* 37-40, otherwise *)
    s_pc st = SLoop -> s_port st <= max_port -> auto = false ->
    step auto watched st {| s_port := s_port st; s_pc := SReturned InUse; s_watchers := s_watchers st;
                            s_log := s_log st ++ [EBusy (s_port st); EReturn InUse] |}
| SDialFree st :                                     (* 47-54 *)
    s_pc st = SLoop ->
    step auto watched st {| s_port := s_port st; s_pc := SServing;
                            s_watchers := if watched then new_watcher :: s_watchers st else s_watchers st;
                            s_log := s_log st ++ [EAttempt (s_port st)] |}
| SDoNil st :                                        (* 55-57 *)
    s_pc st = SServing ->
    step auto watched st {| s_port := s_port st; s_pc := SReturned Served; s_watchers := s_watchers st; s_log := s_log st ++ [EReturn Served] |}
| SDoInUse st :                                      (* 58-63 *)
    s_pc st = SServing -> auto = true ->
    step auto watched st {| s_port := S (s_port st); s_pc := SLoop; s_watchers := close_newest watched (s_watchers st);
                            s_log := s_log st ++ [EBusy (s_port st)] |}
| SDoInUseRefuse st :                                (* 58, 64: EADDRINUSE without autoIncrPort *)
    s_pc st = SServing -> auto = false ->
    step auto watched st {| s_port := s_port st; s_pc := SReturned InUse; s_watchers := close_newest watched (s_watchers st);
                            s_log := s_log st ++ [EBusy (s_port st); EReturn InUse] |}
| SDoFail st :                                       (* 58, 64: any other error *)
    s_pc st = SServing ->
    step auto watched st {| s_port := s_port st; s_pc := SReturned Failed; s_watchers := close_newest watched (s_watchers st);
                            s_log := s_log st ++ [EReturn Failed] |}
| SWTimer st i w :                                   (* 86 *)
    nth_error (s_watchers st) i = Some w ->
    step auto watched st {| s_port := s_port st; s_pc := s_pc st;
                            s_watchers := set_nth i {| w_pc := w_pc w; w_timer := true; w_closed := w_closed w |} (s_watchers st); s_log := s_log st |}
| SWGo st i w :                                      (* 86, chosen; with both ready select takes either *)
    nth_error (s_watchers st) i = Some w -> w_pc w = WWait -> w_timer w = true ->
    step auto watched st {| s_port := s_port st; s_pc := s_pc st;
                            s_watchers := set_nth i {| w_pc := WGo; w_timer := w_timer w; w_closed := w_closed w |} (s_watchers st); s_log := s_log st |}
| SWQuit st i w :                                    (* 87-88 *)
    nth_error (s_watchers st) i = Some w -> w_pc w = WWait -> w_closed w = true ->
    step auto watched st {| s_port := s_port st; s_pc := s_pc st;
                            s_watchers := set_nth i {| w_pc := WQuit; w_timer := w_timer w; w_closed := w_closed w |} (s_watchers st); s_log := s_log st |}
| SWCall st i w :                                    (* 90, 50 *)
    nth_error (s_watchers st) i = Some w -> w_pc w = WGo ->
    step auto watched st {| s_port := s_port st; s_pc := s_pc st;
                            s_watchers := set_nth i {| w_pc := WCalled; w_timer := w_timer w; w_closed := w_closed w |} (s_watchers st);
                            s_log := s_log st ++ [EWatch (s_port st)] |}.
Inductive steps (auto watched : bool) : state -> state -> Prop :=
| Here s : steps auto watched s s
| More s t u : steps auto watched s t -> step auto watched t u -> steps auto watched s u.

(** ** FindListenablePort: 68-82. [serving] answers the dial. *)
Definition dial (serving : nat -> bool) (p : nat) : bool := (p <=? max_port) && serving p.
Inductive finds (serving : nat -> bool) : nat -> nat -> Prop :=
| FHere p : dial serving p = false -> finds serving p p
| FNext p q : dial serving p = true -> finds serving (S p) q -> finds serving p q.

(** ** Addresses *)
(** net.JoinHostPort *)
Definition join_host_port (host : bytes) (port : Z) : bytes :=
  if existsb (fun c => eqc c ":"%char) host then "["%char :: host ++ #"]:" ++ format_int port
  else host ++ ":"%char :: format_int port.
(** 26: what http.ListenAndServe gets. *)
Definition listen_addr (host : bytes) (port : Z) : bytes := host ++ ":"%char :: format_int port.
(** 124-156 GetHostAndIP. [locals] are the addresses of the machine as text (94-121), None when they cannot be
    read or there are none. net.ParseIP and To4 (147-153) are applied to an address of the machine, 0.0.0.0, ::
    or localhost: that is IPv6 exactly when it has a colon. *)
Definition get_host_and_ip (locals : option (list bytes)) (bind_str port_str : bytes) : bytes * Z :=
  let host : bytes := #"localhost" in
  let port := match port_str with [] => 7070%Z | _ => match parse_int port_str with Some p => p | None => 7070%Z end end in
  match locals with
  | None => (host, port)
  | Some ips =>
      let host : bytes := if existsb (fun ip => eqs ip bind_str) (ips ++ [#"0.0.0.0"; #"::"]) then bind_str else host in
      (if existsb (fun c => eqc c ":"%char) host then "["%char :: host ++ #"]" else host, port)
  end.
(** 159-174 GetURLToOpen; [v4] are the IPv4 addresses, empty also when they cannot be read. *)
Definition get_url_to_open (v4 : list bytes) (host : bytes) (port : Z) : bytes * list bytes :=
  let url a := #"http://" ++ a ++ ":"%char :: format_int port in
  if eqs host #"0.0.0.0" then
    match v4 with
    | [] => (url host, [])
    | a :: r => (url a, map url r)
    end
  else (url host, []).
