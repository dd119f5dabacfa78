(** * One test run behind the page: the command, the scanner of its output, the session's
    channel and the page that polls it (cmd/xgo/test-explorer/poll.go:115-159 startRun,
    support/session/session.go:28-63) *)
From Coq Require Import Ascii String List Arith Bool Lia.
From Verif Require Import M_Str.
Import ListNotations.
Open Scope nat_scope.
Open Scope list_scope.

(** poll.go:122, 143 and 153: the events. The error of the run (143) is an Event_Output like a line
    (153), with "err: " before it; the model keeps them apart. *)
Inductive event := Line (msg : bytes) | Err (msg : bytes) | End.
Definition nl : ascii := "010"%char.
Definition cr : ascii := "013"%char.
(** bufio.MaxScanTokenSize, the largest buffer of a Scanner (poll.go:149) *)
Definition max_token : nat := 64 * 1024.
(** session.go:73 *)
Definition channel_size : nat := 100.
(** bufio.ScanLines: a line is sent without its last carriage return *)
Definition drop_cr (l : bytes) : bytes := match rev l with c :: r => if eqc c cr then rev r else l | [] => [] end.
(** poll.go:120-147, the first goroutine: the command runs; its error is to be sent; the deferred
    event is to be sent; it has been *)
Inductive phase := Running | Failing | Ending | Over.
(** [todo]: the writes of the command (stdout and stderr are copied by os/exec, and the pipe admits
    one Write at a time: in the order in which the pipe takes them); [cur]: what the pipe has not
    handed over of the write under way, which returns when that is empty (io.Pipe); [buf]: what the
    scanner holds; [alive]: Scan has not returned false; [queue]: the channel; [got]: what the page
    has received. *)
Record state := { todo : list bytes; cur : bytes; buf : bytes; alive : bool; ph : phase; queue : list event; got : list event }.
Definition start (chunks : list bytes) : state := {| todo := chunks; cur := []; buf := []; alive := true; ph := Running; queue := []; got := [] |}.
Section Run.
  (** what runner(ctx) returns (poll.go:140) *)
  Variable err : option bytes.
  Inductive step : state -> state -> Prop :=
  | s_write t c q b a qu g : (* os/exec's copy, MultiWriter.Write: the pipe (poll.go:132-133) *)
      step {| todo := c :: t; cur := []; buf := b; alive := a; ph := q; queue := qu; got := g |}
           {| todo := t; cur := c; buf := b; alive := a; ph := q; queue := qu; got := g |}
  | s_read t x y q b qu g : (* Scanner.Scan: no line in the buffer, which is not full *)
      x <> [] -> ~ In nl b -> length (b ++ x) <= max_token ->
      step {| todo := t; cur := x ++ y; buf := b; alive := true; ph := q; queue := qu; got := g |}
           {| todo := t; cur := y; buf := b ++ x; alive := true; ph := q; queue := qu; got := g |}
  | s_full t c q b qu g : (* Scanner.Scan: ErrTooLong; poll.go:150 ends *)
      ~ In nl b -> max_token <= length b ->
      step {| todo := t; cur := c; buf := b; alive := true; ph := q; queue := qu; got := g |}
           {| todo := t; cur := c; buf := b; alive := false; ph := q; queue := qu; got := g |}
  | s_line t c q l b qu g : (* poll.go:150-156 *)
      ~ In nl l -> length qu < channel_size ->
      step {| todo := t; cur := c; buf := l ++ nl :: b; alive := true; ph := q; queue := qu; got := g |}
           {| todo := t; cur := c; buf := b; alive := true; ph := q; queue := qu ++ [Line (drop_cr l)]; got := g |}
  | s_exit b a qu g : (* poll.go:140-141: the command and the copies of its output end *)
      step {| todo := []; cur := []; buf := b; alive := a; ph := Running; queue := qu; got := g |}
           {| todo := []; cur := []; buf := b; alive := a; ph := match err with Some _ => Failing | None => Ending end; queue := qu; got := g |}
  | s_fail t c b a e qu g : (* poll.go:142-145 *)
      err = Some e -> length qu < channel_size ->
      step {| todo := t; cur := c; buf := b; alive := a; ph := Failing; queue := qu; got := g |}
           {| todo := t; cur := c; buf := b; alive := a; ph := Ending; queue := qu ++ [Err (lit "err: " ++ e)]; got := g |}
  | s_end t c b a qu g : (* poll.go:121-123 *)
      length qu < channel_size ->
      step {| todo := t; cur := c; buf := b; alive := a; ph := Ending; queue := qu; got := g |}
           {| todo := t; cur := c; buf := b; alive := a; ph := Over; queue := qu ++ [End]; got := g |}
  | s_poll t c b a q e qu g : (* session.go:44-61 *)
      step {| todo := t; cur := c; buf := b; alive := a; ph := q; queue := e :: qu; got := g |}
           {| todo := t; cur := c; buf := b; alive := a; ph := q; queue := qu; got := g ++ [e] |}.
  Inductive reach (chunks : list bytes) : state -> Prop :=
  | r_start : reach chunks (start chunks)
  | r_step s s' : reach chunks s -> step s s' -> reach chunks s'.
End Run.
