(** * Model of copying a tree (support/filecopy/copy.go:28-345) *)
From Coq Require Import List Arith Bool.
Import ListNotations.

(** ** The workers that copy files (copy.go:150-226), step by step.
    A file is a number; [fails] says of which files copyNoPanic (copy.go:229-240) returns an error.
    The return of the walk and close(ch) are one step.  The check for an empty source name
    (172-175) never applies: the walk sends names it has visited. *)
Definition fname := nat.
Inductive worker := Idle | Busy (f : fname) | Exited.
Inductive walker :=
| Walking (todo : list fname)                  (* inside copyDirHandle, 207 *)
| Closed (result : option fname)               (* after close(ch), in wg.Wait(), 208-210 *)
| Returned (result : option fname).            (* 213; None is the nil error *)
Record cstate := { walk : walker; queue : list fname; errs : list fname; workers : list worker; copied : list fname }.
(** copy.go:159: the buffer of ch; 162: errCh has one place per worker. *)
Definition queue_cap : nat := 100 * 100.
Definition set_worker (l : list worker) (i : nat) (x : worker) : list worker := firstn i l ++ x :: skipn (S i) l.
Inductive cstep (fails : fname -> bool) : cstate -> cstate -> Prop :=
| st_send f todo q e w c :                     (* 197-199 *)
    length q < queue_cap ->
    cstep fails {| walk := Walking (f :: todo); queue := q; errs := e; workers := w; copied := c |}
                {| walk := Walking todo; queue := q ++ [f]; errs := e; workers := w; copied := c |}
| st_err f todo q x e w c :                    (* 200-203: the walk stops, 207-208 *)
    cstep fails {| walk := Walking (f :: todo); queue := q; errs := x :: e; workers := w; copied := c |}
                {| walk := Closed (Some x); queue := q; errs := e; workers := w; copied := c |}
| st_walked q e w c :                          (* 207-208 *)
    cstep fails {| walk := Walking []; queue := q; errs := e; workers := w; copied := c |}
                {| walk := Closed None; queue := q; errs := e; workers := w; copied := c |}
| st_take i k f q e w c :                      (* 171 *)
    nth_error w i = Some Idle ->
    cstep fails {| walk := k; queue := f :: q; errs := e; workers := w; copied := c |}
                {| walk := k; queue := q; errs := e; workers := set_worker w i (Busy f); copied := c |}
| st_copied i k f q e w c :                    (* 185 *)
    nth_error w i = Some (Busy f) -> fails f = false ->
    cstep fails {| walk := k; queue := q; errs := e; workers := w; copied := c |}
                {| walk := k; queue := q; errs := e; workers := set_worker w i Idle; copied := f :: c |}
| st_failed i k f q e w c :                    (* 187-191 *)
    nth_error w i = Some (Busy f) -> fails f = true -> length e < length w ->
    cstep fails {| walk := k; queue := q; errs := e; workers := w; copied := c |}
                {| walk := k; queue := q; errs := e ++ [f]; workers := set_worker w i Exited; copied := c |}
| st_exit i r e w c :                          (* 171, 193: the range ends when ch is closed and empty *)
    nth_error w i = Some Idle ->
    cstep fails {| walk := Closed r; queue := []; errs := e; workers := w; copied := c |}
                {| walk := Closed r; queue := []; errs := e; workers := set_worker w i Exited; copied := c |}
| st_return r q e w c :                        (* 210-213 *)
    Forall (fun x => x = Exited) w ->
    cstep fails {| walk := Closed r; queue := q; errs := e; workers := w; copied := c |}
                {| walk := Returned r; queue := q; errs := e; workers := w; copied := c |}.
(** copy.go:159-168. *)
Definition cinit (files : list fname) (n : nat) : cstate :=
  {| walk := Walking files; queue := []; errs := []; workers := repeat Idle n; copied := [] |}.

(** copy.go:144-149: with at most one worker the walk copies the files itself; what is copied,
    and the error. *)
Fixpoint copy_seq (fails : fname -> bool) (files : list fname) : list fname * option fname :=
  match files with
  | [] => ([], None)
  | f :: rest => if fails f then ([], Some f) else let (c, r) := copy_seq fails rest in (f :: c, r)
  end.
