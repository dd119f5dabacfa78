(** * Specification of goroutine-local storage (C17, C18): what a read returns, as
    a function of the history alone (newest operation first). *)
From Coq Require Import List Arith Bool.
From Verif Require Import M_Tls.
Import ListNotations.

(** Number of keys declared so far; is the n-th declared key inheritable? *)
Fixpoint declared (h : list op) : nat :=
  match h with [] => 0 | ODeclare _ :: r => S (declared r) | _ :: r => declared r end.
Fixpoint inheritable (h : list op) (n : nat) : bool :=
  match h with
  | [] => false
  | ODeclare inh :: r => if n =? declared r then inh else inheritable r n
  | _ :: r => inheritable r n
  end.

(** The last value set by g, or the creator's value at g's creation if the key
    was declared and inheritable by then, or nothing. *)
Fixpoint tls_value (h : list op) (g n : nat) : option nat :=
  match h with
  | [] => None
  | OSet g' n' v :: r => if (g' =? g) && (n' =? n) then Some v else tls_value r g n
  | OFork parent slot _ _ :: r =>
      if slot =? g then
        match parent with
        | Some p => if inheritable r n then tls_value r p n else None
        | None => None
        end
      else tls_value r g n
  | _ :: r => tls_value r g n
  end.

(** The trapping depth: increments since the creation of g. *)
Fixpoint trapped (h : list op) (g : nat) : nat :=
  match h with
  | [] => 0
  | OTrap g' :: r => if g' =? g then S (trapped r g) else trapped r g
  | OUntrap g' :: r => if g' =? g then pred (trapped r g) else trapped r g
  | OFork _ slot _ _ :: r => if slot =? g then 0 else trapped r g
  | _ :: r => trapped r g
  end.
(** The attached stack since the creation of g. *)
Fixpoint attached (h : list op) (g : nat) : option nat :=
  match h with
  | [] => None
  | OAttach g' v :: r => if g' =? g then Some v else attached r g
  | ODetach g' :: r => if g' =? g then None else attached r g
  | OFork parent slot fresh _ :: r =>
      if slot =? g then
        match parent with
        | Some p => match attached r p with Some _ => Some fresh | None => None end
        | None => None
        end
      else attached r g
  | _ :: r => attached r g
  end.

(** Which goroutine slots are live. *)
Fixpoint live (h : list op) (g : nat) : bool :=
  match h with
  | [] => g =? 0
  | OFork _ slot _ _ :: r => (slot =? g) || live r g
  | OExit g' _ :: r => negb (g' =? g) && live r g
  | _ :: r => live r g
  end.
