(** * Model of reading and parsing the files of the packages (instrument/load/load.go:59-224) *)
From Coq Require Import List Arith Bool.
Import ListNotations.

(** A file is a number; [readable]: readFile (226-244) gives its content (it fails also for files larger than
    MaxFileSize); [parses]: parser.ParseFile gives no error.  What is kept of a *File: its fields
    Error and Syntax. *)
Definition file := nat.
Inductive fields := Unset | HasError | HasSyntax.
(** 106-125: a reader; RErr: it has called wg.Done (114) and not yet set f.Error (115). *)
Inductive reader := RIdle | RRead (f : file) | RErr (f : file) | RSend (f : file).
(** 128-147: a parser; PSet: it has set f.Error and f.Syntax (135-136) and not yet called wg.Done (140). *)
Inductive parser := PIdle | PParse (f : file) | PSet (f : file).
(** [files]: all files, in the order of the packages. *)
Inductive main_ :=
| Adding (files todo : list file)                    (* 150-187 *)
| Sending (files : list file) (f : file) (todo : list file)        (* between 183 and 184 *)
| Waiting (files : list file)                             (* 188 *)
| Filtering (todo kept : list file)              (* 191-209 *)
| Returned (kept : list file).                   (* 220-223 *)
Record lstate := { main : main_; wg : nat; readq : list file; readers : list reader; parseq : list file; parsers : list parser; mem : file -> fields }.
Definition set_nth {A} (l : list A) (i : nat) (x : A) : list A := firstn i l ++ x :: skipn (S i) l.
Definition upd (m : file -> fields) (f : file) (v : fields) : file -> fields := fun g => if Nat.eqb g f then v else m g.
(** [io], [cpu]: IO_LIMIT and CPU_LIMIT (99-100), the numbers of workers and the sizes of the two channels. *)
Inductive lstep (readable parses : file -> bool) (io cpu : nat) : lstate -> lstate -> Prop :=
| ls_add fs f todo n rq rs pq ps m :                (* 183 wg.Add(1) *)
    lstep readable parses io cpu {| main := Adding fs (f :: todo); wg := n; readq := rq; readers := rs; parseq := pq; parsers := ps; mem := m |}
                                 {| main := Sending fs f todo; wg := S n; readq := rq; readers := rs; parseq := pq; parsers := ps; mem := m |}
| ls_send fs f todo n rq rs pq ps m :               (* 184 *)
    length rq < io ->
    lstep readable parses io cpu {| main := Sending fs f todo; wg := n; readq := rq; readers := rs; parseq := pq; parsers := ps; mem := m |}
                                 {| main := Adding fs todo; wg := n; readq := rq ++ [f]; readers := rs; parseq := pq; parsers := ps; mem := m |}
| ls_added fs n rq rs pq ps m :
    lstep readable parses io cpu {| main := Adding fs []; wg := n; readq := rq; readers := rs; parseq := pq; parsers := ps; mem := m |}
                                 {| main := Waiting fs; wg := n; readq := rq; readers := rs; parseq := pq; parsers := ps; mem := m |}
| ls_take i f k n rq rs pq ps m :                (* 110 *)
    nth_error rs i = Some RIdle ->
    lstep readable parses io cpu {| main := k; wg := n; readq := f :: rq; readers := rs; parseq := pq; parsers := ps; mem := m |}
                                 {| main := k; wg := n; readq := rq; readers := set_nth rs i (RRead f); parseq := pq; parsers := ps; mem := m |}
| ls_unreadable i f k n rq rs pq ps m :          (* 111-114: wg.Done comes first *)
    nth_error rs i = Some (RRead f) -> readable f = false ->
    lstep readable parses io cpu {| main := k; wg := S n; readq := rq; readers := rs; parseq := pq; parsers := ps; mem := m |}
                                 {| main := k; wg := n; readq := rq; readers := set_nth rs i (RErr f); parseq := pq; parsers := ps; mem := m |}
| ls_error i f k n rq rs pq ps m :               (* 115-116 *)
    nth_error rs i = Some (RErr f) ->
    lstep readable parses io cpu {| main := k; wg := n; readq := rq; readers := rs; parseq := pq; parsers := ps; mem := m |}
                                 {| main := k; wg := n; readq := rq; readers := set_nth rs i RIdle; parseq := pq; parsers := ps; mem := upd m f HasError |}
| ls_read i f k n rq rs pq ps m :                (* 118 *)
    nth_error rs i = Some (RRead f) -> readable f = true ->
    lstep readable parses io cpu {| main := k; wg := n; readq := rq; readers := rs; parseq := pq; parsers := ps; mem := m |}
                                 {| main := k; wg := n; readq := rq; readers := set_nth rs i (RSend f); parseq := pq; parsers := ps; mem := m |}
| ls_pass i f k n rq rs pq ps m :                (* 119 *)
    nth_error rs i = Some (RSend f) -> length pq < cpu ->
    lstep readable parses io cpu {| main := k; wg := n; readq := rq; readers := rs; parseq := pq; parsers := ps; mem := m |}
                                 {| main := k; wg := n; readq := rq; readers := set_nth rs i RIdle; parseq := pq ++ [f]; parsers := ps; mem := m |}
| ls_parse i f k n rq rs pq ps m :               (* 132 *)
    nth_error ps i = Some PIdle ->
    lstep readable parses io cpu {| main := k; wg := n; readq := rq; readers := rs; parseq := f :: pq; parsers := ps; mem := m |}
                                 {| main := k; wg := n; readq := rq; readers := rs; parseq := pq; parsers := set_nth ps i (PParse f); mem := m |}
| ls_set i f k n rq rs pq ps m :                 (* 133-136 *)
    nth_error ps i = Some (PParse f) ->
    lstep readable parses io cpu {| main := k; wg := n; readq := rq; readers := rs; parseq := pq; parsers := ps; mem := m |}
                                 {| main := k; wg := n; readq := rq; readers := rs; parseq := pq; parsers := set_nth ps i (PSet f); mem := upd m f (if parses f then HasSyntax else HasError) |}
| ls_done i f k n rq rs pq ps m :                (* 140 *)
    nth_error ps i = Some (PSet f) ->
    lstep readable parses io cpu {| main := k; wg := S n; readq := rq; readers := rs; parseq := pq; parsers := ps; mem := m |}
                                 {| main := k; wg := n; readq := rq; readers := rs; parseq := pq; parsers := set_nth ps i PIdle; mem := m |}
| ls_wait files rq rs pq ps m :                  (* 188-189: wg.Wait returns when the counter is 0 *)
    lstep readable parses io cpu {| main := Waiting files; wg := 0; readq := rq; readers := rs; parseq := pq; parsers := ps; mem := m |}
                                 {| main := Filtering files []; wg := 0; readq := rq; readers := rs; parseq := pq; parsers := ps; mem := m |}
| ls_keep f todo kept n rq rs pq ps m :          (* 197-204: a file is kept if its Error is nil *)
    lstep readable parses io cpu {| main := Filtering (f :: todo) kept; wg := n; readq := rq; readers := rs; parseq := pq; parsers := ps; mem := m |}
                                 {| main := Filtering todo (match m f with HasError => kept | _ => kept ++ [f] end); wg := n; readq := rq; readers := rs; parseq := pq; parsers := ps; mem := m |}
| ls_return kept n rq rs pq ps m :               (* 220-223 *)
    lstep readable parses io cpu {| main := Filtering [] kept; wg := n; readq := rq; readers := rs; parseq := pq; parsers := ps; mem := m |}
                                 {| main := Returned kept; wg := n; readq := rq; readers := rs; parseq := pq; parsers := ps; mem := m |}.
(** 97-104.  Only FilterErrorFile = true is modelled (cmd/xgo/instrument.go:145).  Workers leaving on the
    closed channel done (121, 143) are not: by then there is nothing left for them to receive. *)
Definition linit (files : list file) (io cpu : nat) : lstate :=
  {| main := Adding files files; wg := 0; readq := []; readers := repeat RIdle io; parseq := []; parsers := repeat PIdle cpu; mem := fun _ => Unset |}.
