(** * Go slices with backing arrays: cancelling a handler while the dispatch
    loop is iterating (C08).

    Sources: runtime/internal/trap/stack_data.go:126-142,180-196 (the returned
    slice aliases the registration list unless both lists are non-empty),
    trap.go:157-175 (range loop), record.go:151-169 and interceptor.go:51-71
    (cancel functions). *)
From Coq Require Import List Arith Bool Lia.
Import ListNotations.

(** A slice starting at index 0 of its backing array. *)
Record slice := Slice { arr : list nat; len : nat }.

Definition elems (s : slice) : list nat := firstn (len s) (arr s).

Fixpoint find_index (c : nat) (l : list nat) : option nat :=
  match l with
  | [] => None
  | x :: r => if x =? c then Some 0 else option_map S (find_index c r)
  end.

(** The list manipulation of a cancel function, including its effect on the
    backing array: [list[:n-1]] leaves the array as it is;
    [append(list[:i], list[i+1:]...)] fits in the capacity, so it copies
    elements i+1..n-1 one place down inside the same array. *)
Definition cancel (c : nat) (s : slice) : option slice :=
  match len s with
  | 0 => None                                   (* index out of range *)
  | S m =>
      if nth m (arr s) 0 =? c then Some (Slice (arr s) m)
      else match find_index c (elems s) with
           | None => None                       (* panic: not found *)
           | Some i =>
               Some (Slice (firstn i (arr s) ++ firstn (m - i) (skipn (S i) (arr s)) ++ skipn m (arr s)) m)
           end
  end.

Fixpoint cancel_all (cs : list nat) (s : slice) : option slice :=
  match cs with
  | [] => Some s
  | c :: r => match cancel c s with None => None | Some s' => cancel_all r s' end
  end.

(** [for _, h := range handlers { h.pre(...) }] where [handlers] has length n
    and shares its backing array with the registration list [s]; invoking h
    cancels the registrations [cancels h].  The element is read from the array
    at each iteration.  Returns the handlers invoked; None = a cancel panicked. *)
Fixpoint range_aliased (cancels : nat -> list nat) (k i : nat) (s : slice) : option (list nat) :=
  match k with
  | 0 => Some []
  | S k' =>
      let h := nth i (arr s) 0 in
      match cancel_all (cancels h) s with
      | None => None
      | Some s' => option_map (cons h) (range_aliased cancels k' (S i) s')
      end
  end.

(** The same loop over a private copy (both the local and the global list are
    non-empty, stack_data.go:132-137). *)
Fixpoint range_copied (cancels : nat -> list nat) (hs : list nat) (s : slice) : option (list nat) :=
  match hs with
  | [] => Some []
  | h :: r =>
      match cancel_all (cancels h) s with
      | None => None
      | Some s' => option_map (cons h) (range_copied cancels r s')
      end
  end.

(** getRecordHandlers / getGeneralInterceptors followed by the loop. *)
Definition dispatch (cancels : nat -> list nat) (local : slice) (global : list nat) : option (list nat) :=
  match global, len local with
  | [], n => range_aliased cancels n 0 local
  | _, 0 => range_copied cancels global local
  | _, _ => range_copied cancels (elems local ++ global) local
  end.
