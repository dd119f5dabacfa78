(** * Model of goroutine-local storage
    (runtime/tls/{tls,hook}.go, runtime/internal/runtime/g.go,
    runtime/internal/runtime/xgo_trap_template.go:82-86,238-279,
    runtime/internal/stack/g.go).

    Goroutines live in slots (the runtime's g structs), which are reused after an
    exit.  Simplifications: values and stacks are numbers; looseJsonMarshaling is
    a flag nobody sets; a goroutine only uses keys that were declared. *)
From Coq Require Import List Arith Bool Lia.
Import ListNotations.

(** The keys of gls: a *tlsKey (by pointer identity: its declaration index) or
    gStackKey. *)
Inductive key := KTls (n : nat) | KStack.
Definition key_eqb (a b : key) : bool :=
  match a, b with KTls n, KTls m => Nat.eqb n m | KStack, KStack => true | _, _ => false end.

(** G / __xgo_g (g.go:6-14, xgo_trap_template.go:82-86). *)
Record gstate := G { gls : list (key * nat); loose : bool; depth : nat }.
Definition zero_g : gstate := G [] false 0.

(** Get / GetOK (g.go:31-38): None is "not ok". *)
Fixpoint lookup (l : list (key * nat)) (k : key) : option nat :=
  match l with
  | [] => None
  | (k', v) :: r => if key_eqb k' k then Some v else lookup r k
  end.
(** Delete (g.go:40-42), Set (g.go:24-29). *)
Definition remove (l : list (key * nat)) (k : key) := filter (fun x => negb (key_eqb (fst x) k)) l.
Definition put (l : list (key * nat)) (k : key) (v : nat) := (k, v) :: remove l k.
Definition set_gls (f : list (key * nat) -> list (key * nat)) (g : gstate) := G (f (gls g)) (loose g) (depth g).

(** [decls]: the [keys] variable of tls.go:14, only the inherit flags. *)
Record world := World { slots : list gstate; alive : list bool; decls : list bool }.

Fixpoint upd {A} (l : list A) (i : nat) (f : A -> A) : list A :=
  match l, i with [], _ => [] | x :: r, 0 => f x :: r | x :: r, S i => x :: upd r i f end.

(** hook.go:10-28: the callback run at goroutine creation. *)
Fixpoint inherit_from (n : nat) (ds : list bool) (parent child : list (key * nat)) : list (key * nat) :=
  match ds with
  | [] => child
  | inh :: r =>
      inherit_from (S n) r parent
        (if inh then match lookup parent (KTls n) with Some v => put child (KTls n) v | None => child end else child)
  end.
(** trap/init.go:15-17,29-39, the part touching gls: the child gets a fresh stack
    when the parent has one. *)
Definition inherit_stack (fresh : nat) (parent child : list (key * nat)) : list (key * nat) :=
  match lookup parent KStack with
  | None => child
  | Some _ => match lookup child KStack with Some _ => child | None => put child KStack fresh end
  end.

Inductive op :=
| ODeclare (inh : bool)                          (* tls.Declare / DeclareInherit *)
| OSet (g n v : nat)                             (* key.Set(v) in g *)
| OAttach (g v : nat) | ODetach (g : nat)        (* stack.G.AttachStack / DetachStack *)
| OTrap (g : nat) | OUntrap (g : nat)            (* IncTrappingDepth / DecTrappingDepth *)
| OFork (parent : option nat) (slot : nat) (fresh : nat) (tls_first : bool)
    (* newproc: parent None when curg is nil; callbacks in either order *)
| OExit (g : nat) (hook : bool).                 (* hook: did __xgo_callback_on_exit_g run *)

Definition is_alive (w : world) (g : nat) : bool := nth g (alive w) false.
Definition on (w : world) (g : nat) (f : gstate -> gstate) : option world :=
  if is_alive w g then Some (World (upd (slots w) g f) (alive w) (decls w)) else None.

(** __xgo_callback_on_create_g (xgo_trap_template.go:257-279). *)
Definition create (w : world) (parent : option nat) (fresh : nat) (tls_first : bool) : gstate :=
  match parent with
  | None => zero_g
  | Some p =>
      let pg := gls (nth p (slots w) zero_g) in
      let f := inherit_from 0 (decls w) pg in
      let h := inherit_stack fresh pg in
      set_gls (fun l => if tls_first then h (f l) else f (h l)) zero_g
  end.

Definition step (w : world) (o : op) : option world :=
  match o with
  | ODeclare inh => Some (World (slots w) (alive w) (decls w ++ [inh]))
  | OSet g n v => if n <? length (decls w) then on w g (set_gls (fun l => put l (KTls n) v)) else None
  | OAttach g v =>
      match lookup (gls (nth g (slots w) zero_g)) KStack with
      | Some _ => None                                   (* panics "stack already attached" *)
      | None => on w g (set_gls (fun l => put l KStack v))
      end
  | ODetach g => on w g (set_gls (fun l => remove l KStack))
  | OTrap g => on w g (fun x => G (gls x) (loose x) (S (depth x)))
  | OUntrap g => on w g (fun x => G (gls x) (loose x) (pred (depth x)))
  | OFork parent slot fresh tls_first =>
      if match parent with Some p => is_alive w p | None => true end && negb (is_alive w slot) then
        let c := create w parent fresh tls_first in
        if slot <? length (slots w) then
          Some (World (upd (slots w) slot (fun _ => c)) (upd (alive w) slot (fun _ => true)) (decls w))
        else if slot =? length (slots w) then
          Some (World (slots w ++ [c]) (alive w ++ [true]) (decls w))
        else None
      else None
  | OExit g hook =>
      if is_alive w g then
        Some (World (if hook then upd (slots w) g (fun _ => zero_g) else slots w)
                    (upd (alive w) g (fun _ => false)) (decls w))
      else None
  end.

Fixpoint run (ops : list op) (w : world) : option world :=
  match ops with [] => Some w | o :: r => match step w o with None => None | Some w' => run r w' end end.

(** The main goroutine in slot 0. *)
Definition init_world : world := World [zero_g] [true] [].

(** key.GetOK() in goroutine g (tls.go:78-80). *)
Definition read (w : world) (g n : nat) : option nat := lookup (gls (nth g (slots w) zero_g)) (KTls n).
Definition stack_of (w : world) (g : nat) : option nat := lookup (gls (nth g (slots w) zero_g)) KStack.
Definition depth_of (w : world) (g : nat) : nat := depth (nth g (slots w) zero_g).
