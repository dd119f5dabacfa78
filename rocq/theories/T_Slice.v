(** * Theorems about cancelling from inside a handler (C08). Model: M_Slice. *)
From Coq Require Import List Arith Bool.
From Verif Require Import M_Slice P_Slice.
Import ListNotations.

(** The full statement (every registered handler not cancelled by anybody is
    invoked exactly once) fails: three recorders, the first cancels itself; the
    second is skipped and the third runs twice. *)
Theorem C08_self_cancel_refuted :
  exists cancels local log h,
    NoDup (elems local) /\ len local <= length (arr local) /\
    dispatch cancels local [] = Some log /\
    In h (elems local) /\ (forall x, ~ In h (cancels x)) /\
    count_occ Nat.eq_dec log h <> 1.
Proof.
  exists (fun h => if h =? 1 then [1] else []), (Slice [1;2;3] 3), [1;3;3], 2.
  repeat split; auto.
  - repeat constructor; simpl; intuition discriminate.
  - simpl; auto.
  - intros x. destruct (x =? 1); simpl; intuition discriminate.
Qed.
Print Assumptions C08_self_cancel_refuted.

(** ... and the last one is invoked twice. *)
Theorem C08_double_invocation_refuted :
  exists cancels local log h,
    NoDup (elems local) /\ dispatch cancels local [] = Some log /\
    count_occ Nat.eq_dec log h = 2.
Proof.
  exists (fun h => if h =? 1 then [1] else []), (Slice [1;2;3] 3), [1;3;3], 3.
  repeat split; auto. repeat constructor; simpl; intuition discriminate.
Qed.
Print Assumptions C08_double_invocation_refuted.

(** What holds: when a global registration exists too the loop runs over a
    private copy, and every handler runs once, in order, whatever is cancelled. *)
Theorem C08_with_globals_partial :
  forall cancels local global log,
    global <> [] -> dispatch cancels local global = Some log -> log = elems local ++ global.
Proof. exact copied_dispatch. Qed.
Print Assumptions C08_with_globals_partial.

(** And when no handler cancels anything. *)
Theorem C08_without_cancel_partial :
  forall cancels local log,
    (forall h, cancels h = []) -> len local <= length (arr local) ->
    dispatch cancels local [] = Some log -> log = elems local.
Proof. exact nocancel_dispatch. Qed.
Print Assumptions C08_without_cancel_partial.

(** Between dispatches the in-place removal is a correct list removal: this
    links the slice-level cancel to the list-level one of M_Registry (C02). *)
Theorem C02_slice_cancel_is_list_removal :
  forall c s s', NoDup (elems s) -> len s <= length (arr s) -> cancel c s = Some s' ->
    exists a b, elems s = a ++ c :: b /\ elems s' = a ++ b /\ length (arr s') = length (arr s).
Proof. exact cancel_elems. Qed.
Print Assumptions C02_slice_cancel_is_list_removal.

Example C08_example :
  dispatch (fun h => if h =? 1 then [1] else []) (Slice [1;2;3] 3) [9] = Some [1;2;3;9] /\
  option_map elems (cancel 2 (Slice [1;2;3;7] 3)) = Some [1;3].
Proof. vm_compute. auto. Qed.
