(** * Model of the goroutines of a run of the test explorer (cmd/xgo/test-explorer/run_session.go:295-427, 585-603)
    go test, the reader of its stdout, the reader of its stderr, the session and the page that polls it. *)
From Coq Require Import Ascii String List Arith Bool Lia.
From Verif Require Import M_Str M_Explorer M_ExplorerRun M_Session.
Import ListNotations.
Open Scope nat_scope. Open Scope list_scope.

Definition newline : ascii := "010"%char.
(** bufio.Scanner: MaxScanTokenSize; the buffer is never larger. *)
Definition max_token : nat := 64 * 1024.
(** bufio.dropCR *)
Definition drop_cr (l : bytes) : bytes := match rev l with "013"%char :: r => rev r | _ => l end.

Section Live.
(** [S]: what the reader of stdout knows (pm, memory); [E]: the events it sends. *)
Variables S E : Type.
(** What the builder makes of a line (591-601): events, an error to tell, a crash. *)
Inductive outcome := Built (s : S) (es : list E) | Bad (e : E) | Panic.
Variable build : S -> bytes -> outcome.
(** 385-422: the last events, after go test has returned: any that fulfil this. *)
Variable final : S -> list E -> Prop.
(** What goes through the session: events of the reader of stdout; lines of stderr (268-274). *)
Inductive message := Main (e : E) | Plain (line : bytes).
Inductive cphase := Scanning      (* 421 consumeTestEvent *)
                  | Waiting       (* 386 receiving from errCh *)
                  | Ending.       (* 387-419; then returned *)
Inductive rphase := Running       (* 351-355: go test runs *)
                  | Closed        (* 326: w is closed; sending to errCh *)
                  | Reported.
Inductive dphase := NoStderr      (* 299-301: a single case: stderr goes to w *)
                  | Reading       (* 372 consumeTestEvent *)
                  | Stopped.
(** [x_out], [x_err]: what go test has still to write, or has written and nobody has read.  os/exec copies it to the pipes; a write to
    an io.Pipe returns when all of it has been read. *)
Record live := {
  x_out : bytes; x_err : bytes; x_run : rphase;
  c_phase : cphase; c_buf : bytes; c_state : S; c_queue : list message;
  d_phase : dphase; d_buf : bytes; d_queue : list message;
  x_chan : list message; x_got : list message }.
Inductive sys := Live (x : live) | Dead.

(** The reader of stdout has nothing to send and no whole line: the scanner reads. *)
Definition reading (x : live) : Prop := c_phase x = Scanning /\ c_queue x = [] /\ ~ In newline (c_buf x).
(** A line is taken from the buffer (591-601). *)
Definition took (x : live) (rest : bytes) (line : bytes) : sys :=
  match build (c_state x) (drop_cr line) with
  | Panic => Dead
  | Bad e => Live {| x_out := x_out x; x_err := x_err x; x_run := x_run x; c_phase := Waiting; c_buf := rest; c_state := c_state x; c_queue := [Main e];
                     d_phase := d_phase x; d_buf := d_buf x; d_queue := d_queue x; x_chan := x_chan x; x_got := x_got x |}
  | Built s es => Live {| x_out := x_out x; x_err := x_err x; x_run := x_run x; c_phase := Scanning; c_buf := rest; c_state := s; c_queue := map Main es;
                     d_phase := d_phase x; d_buf := d_buf x; d_queue := d_queue x; x_chan := x_chan x; x_got := x_got x |}
  end.
Definition with_c (x : live) (p : cphase) (b : bytes) (q : list message) (out : bytes) (chan : list message) (run : rphase) : live :=
  {| x_out := out; x_err := x_err x; x_run := run; c_phase := p; c_buf := b; c_state := c_state x; c_queue := q;
     d_phase := d_phase x; d_buf := d_buf x; d_queue := d_queue x; x_chan := chan; x_got := x_got x |}.
Definition with_d (x : live) (p : dphase) (b : bytes) (q : list message) (err : bytes) (chan : list message) : live :=
  {| x_out := x_out x; x_err := err; x_run := x_run x; c_phase := c_phase x; c_buf := c_buf x; c_state := c_state x; c_queue := c_queue x;
     d_phase := p; d_buf := b; d_queue := q; x_chan := chan; x_got := x_got x |}.
Inductive step : sys -> sys -> Prop :=
(** bufio.Scanner reads some bytes: as many as there are at that time, at most as many as there is room. *)
| s_read x k : reading x -> 0 < k -> k <= length (x_out x) -> length (c_buf x) + k <= max_token ->
    step (Live x) (Live (with_c x Scanning (c_buf x ++ firstn k (x_out x)) [] (skipn k (x_out x)) (x_chan x) (x_run x)))
(** a line is complete *)
| s_line x line rest : c_phase x = Scanning -> c_queue x = [] -> cut_first newline (c_buf x) = Some (line, rest) -> step (Live x) (took x rest line)
(** the end of the input, which may be the end of a line *)
| s_last x : reading x -> x_out x = [] -> x_run x <> Running -> length (c_buf x) < max_token -> c_buf x <> [] -> step (Live x) (took x [] (c_buf x))
| s_eof x : reading x -> x_out x = [] -> x_run x <> Running -> c_buf x = [] -> step (Live x) (Live (with_c x Waiting [] [] [] (x_chan x) (x_run x)))
(** bufio.ErrTooLong: Scan returns false, consumeTestEvent returns *)
| s_too_long x : reading x -> length (c_buf x) = max_token -> step (Live x) (Live (with_c x Waiting (c_buf x) [] (x_out x) (x_chan x) (x_run x)))
(** an event is put into the session, if there is room (226-234; session.go:32-37) *)
| s_send x m q : c_queue x = m :: q -> length (x_chan x) < capacity -> step (Live x) (Live (with_c x (c_phase x) (c_buf x) q (x_out x) (x_chan x ++ [m]) (x_run x)))
(** go test has ended: all it wrote has been read; w is closed (326) *)
| s_ended x : x_run x = Running -> x_out x = [] -> x_err x = [] -> step (Live x) (Live (with_c x (c_phase x) (c_buf x) (c_queue x) [] (x_chan x) Closed))
(** errCh (327, 386) has no buffer *)
| s_reported x es : x_run x = Closed -> c_phase x = Waiting -> c_queue x = [] -> final (c_state x) es ->
    step (Live x) (Live (with_c x Ending (c_buf x) (map Main es) (x_out x) (x_chan x) Reported))
(** the reader of stderr (369-379); its input has no end: only itself closes the pipe *)
| s_dread x k : d_phase x = Reading -> d_queue x = [] -> ~ In newline (d_buf x) -> 0 < k -> k <= length (x_err x) -> length (d_buf x) + k <= max_token ->
    step (Live x) (Live (with_d x Reading (d_buf x ++ firstn k (x_err x)) [] (skipn k (x_err x)) (x_chan x)))
| s_dline x line rest : d_phase x = Reading -> d_queue x = [] -> cut_first newline (d_buf x) = Some (line, rest) ->
    step (Live x) (Live (with_d x Reading rest [Plain (drop_cr line)] (x_err x) (x_chan x)))
(** 371: it closes the pipe; the rest of stderr can not be written.  (That go test may then be killed is left out.) *)
| s_dtoo_long x : d_phase x = Reading -> d_queue x = [] -> ~ In newline (d_buf x) -> length (d_buf x) = max_token ->
    step (Live x) (Live (with_d x Stopped (d_buf x) [] [] (x_chan x)))
| s_dsend x m q : d_queue x = m :: q -> length (x_chan x) < capacity -> step (Live x) (Live (with_d x (d_phase x) (d_buf x) q (x_err x) (x_chan x ++ [m])))
(** the page polls *)
| s_recv x m r : x_chan x = m :: r ->
    step (Live x) (Live {| x_out := x_out x; x_err := x_err x; x_run := x_run x; c_phase := c_phase x; c_buf := c_buf x; c_state := c_state x; c_queue := c_queue x;
       d_phase := d_phase x; d_buf := d_buf x; d_queue := d_queue x; x_chan := r; x_got := x_got x ++ [m] |}).
Inductive steps : sys -> sys -> Prop :=
| steps_refl s : steps s s
| steps_next a b c : steps a b -> step b c -> steps a c.
(** 236-304, at the return of Start.  [s]: after the start has been sent ([first]). *)
Definition started (single : bool) (s : S) (first : list E) (out err : bytes) : live :=
  {| x_out := out; x_err := err; x_run := Running; c_phase := Scanning; c_buf := []; c_state := s; c_queue := [];
     d_phase := if single then NoStderr else Reading; d_buf := []; d_queue := []; x_chan := map Main first; x_got := [] |}.
End Live.
Arguments Built {S E}. Arguments Bad {S E}. Arguments Panic {S E}. Arguments Main {E}. Arguments Plain {E}. Arguments Live {S E}. Arguments Dead {S E}.
Arguments x_out {S E}. Arguments x_err {S E}. Arguments x_run {S E}. Arguments c_phase {S E}. Arguments c_buf {S E}. Arguments c_state {S E}. Arguments c_queue {S E}.
Arguments d_phase {S E}. Arguments d_buf {S E}. Arguments d_queue {S E}. Arguments x_chan {S E}. Arguments x_got {S E}.

(** ** The builders and last events of M_ExplorerRun *)
(** An event with the memory at the time it was sent. *)
Definition sent_event := (event * heap)%type.
Definition run_build (b : heap -> pmap -> bytes -> built) (root : slice) (st : rstate) (line : bytes) : outcome rstate sent_event :=
  match b (r_heap st) (r_pm st) line with
  | BPanic => Panic
  | BErr msg => Bad ({| e_kind := ErrorMsg; e_item := None; e_path := root; e_status := []; e_msg := msg |}, r_heap st)
  | BOk h es => Built (send_all (with_heap st h) es) (map (fun e => (e, h)) es)
  end.
Definition run_final (grow : nat -> nat -> nat) (trace : option (list bytes -> bool)) (root : slice) (err : option bytes) (st : rstate) (es : list sent_event) : Prop :=
  exists t, reordered (r_pm (failed root err st)) t /\ es = skipn (length (r_log st)) (r_log (ending grow trace root t (failed root err st))).
