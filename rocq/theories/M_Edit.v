(** * Model of support/edit/edit.go: position-based editing of a byte slice. *)
From Coq Require Import Ascii List Arith Bool Lia.
From Verif Require Import M_Str.
Import ListNotations.

(** edit.go:19-23. *)
Record edit := Edit { e_start : nat; e_end : nat; e_new : bytes }.

(** edit.go:26-36: the order of Less. *)
Definition less (a b : edit) : bool :=
  if e_start a =? e_start b then e_end a <? e_end b else e_start a <? e_start b.

(** The calls a client makes.  Simplification: positions are natural numbers, so the
    checks for negative positions are not modelled; [None] as end is the -1 of the code
    (end of file).  [OBytes]: Bytes or String, which sorts the queue in place. *)
Inductive op :=
| OInsert (pos : nat) (new : bytes)
| ODelete (start : nat) (stop : option nat)
| OReplace (start : nat) (stop : option nat) (new : bytes)
| OBytes.

(** sort.Stable(b.q) (edit.go:77), as stable insertion sort. *)
Fixpoint insert_sorted (x : edit) (l : list edit) : list edit :=
  match l with
  | [] => [x]
  | y :: r => if less y x then y :: insert_sorted x r else x :: y :: r
  end.
Fixpoint sort_stable (q : list edit) : list edit :=
  match q with [] => [] | x :: r => insert_sorted x (sort_stable r) end.

(** edit.go:44-67: None is the "invalid edit position" panic. *)
Definition end_of (old : bytes) (stop : option nat) : nat := match stop with None => length old | Some e => e end.
Definition step (old : bytes) (q : list edit) (o : op) : option (list edit) :=
  match o with
  | OInsert pos new => if length old <? pos then None else Some (q ++ [Edit pos pos new])
  | ODelete start stop =>
      let e := end_of old stop in
      if (e <? start) || (length old <? e) then None else Some (q ++ [Edit start e []])
  | OReplace start stop new =>
      let e := end_of old stop in
      if (e <? start) || (length old <? e) then None else Some (q ++ [Edit start e new])
  | OBytes => Some (sort_stable q)
  end.
Fixpoint queue (old : bytes) (q : list edit) (ops : list op) : option (list edit) :=
  match ops with [] => Some q | o :: r => match step old q o with None => None | Some q' => queue old q' r end end.

(** edit.go:79-91, the loop after sorting; [rest] is old[offset:].  None: the
    "overlapping edits" panic. *)
Fixpoint apply_sorted (offset : nat) (rest : bytes) (q : list edit) : option bytes :=
  match q with
  | [] => Some rest
  | e :: r =>
      if e_start e <? offset then None
      else
        match apply_sorted (e_end e) (skipn (e_end e - offset) rest) r with
        | None => None
        | Some t => Some (firstn (e_start e - offset) rest ++ e_new e ++ t)
        end
  end.
(** Bytes (edit.go:72-92). *)
Definition bytes_of (old : bytes) (q : list edit) : option bytes := apply_sorted 0 old (sort_stable q).
