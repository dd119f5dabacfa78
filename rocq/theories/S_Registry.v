(** * History-level specification of the registry (properties C01-C06, C14, C18).

    Nothing here refers to goroutine slots, heaps, stacks or closures: what is
    in force is computed from the history of API operations alone.  Histories
    are newest first. *)
From Coq Require Import List Arith Bool.
From Verif Require Import M_Registry.
Import ListNotations.

(** Number of registrations made: the next cancel function has this number. *)
Fixpoint pushes (h : list op) : nat :=
  match h with
  | [] => 0
  | OPush _ _ _ _ :: h' => S (pushes h')
  | _ :: h' => pushes h'
  end.

Fixpoint init_done (h : list op) : bool :=
  match h with
  | [] => false
  | OInitDone :: _ => true
  | _ :: h' => init_done h'
  end.

(** Number of registrations made before init finished (these are the first ones). *)
Fixpoint pre_init_pushes (h : list op) : nat :=
  match h with
  | [] => 0
  | OPush _ _ _ _ :: h' => if init_done h' then pre_init_pushes h' else S (pre_init_pushes h')
  | _ :: h' => pre_init_pushes h'
  end.

(** Is a goroutine running in slot g? *)
Fixpoint running (h : list op) (g : nat) : bool :=
  match h with
  | [] => g =? 0
  | OGo _ s :: h' => if s =? g then true else running h' g
  | OExit s :: h' => if s =? g then false else running h' g
  | _ :: h' => running h' g
  end.

(** Remove registration number c from a list, keep everything else in order. *)
Definition without (c : nat) (l : list holder) : list holder :=
  filter (fun r => match h_id r with Some d => negb (c =? d) | None => true end) l.

(** A registration as seen by a child goroutine: same target, same bound
    instance, same handler; not cancellable from outside. *)
Definition inherited (r : holder) : holder := Holder None (h_want r) (h_beh r).

(** Only mocks and recorders of functions are bound to a receiver. *)
Definition bound_to (n : name) (want : option nat) : option nat :=
  match n with Mock _ | Rec _ => want | _ => None end.
Definition name_dec : forall a b : name, {a = b} + {a <> b}.
Proof. decide equality; apply Nat.eq_dec. Defined.
Definition same_name (a b : name) : bool := if name_dec a b then true else false.
(** The registration made last. *)
Fixpoint newest {A} (l : list A) : option A :=
  match l with [] => None | [x] => Some x | _ :: r => newest r end.

(** Registrations made before init finished and still in force, oldest first. *)
Fixpoint spec_global (h : list op) (n : name) : list holder :=
  match h with
  | [] => []
  | OPush _ m want beh :: h' =>
      if negb (init_done h') && same_name m n
      then spec_global h' n ++ [Holder (Some (pushes h')) (bound_to n want) beh]
      else spec_global h' n
  | OCancel c :: h' => if init_done h' then spec_global h' n else without c (spec_global h' n)
  | _ :: h' => spec_global h' n
  end.

(** Registrations in force in goroutine g (own and inherited), oldest first. *)
Fixpoint spec_local (race_safe : bool) (h : list op) (g : nat) (n : name) : list holder :=
  match h with
  | [] => []
  | OPush g' m want beh :: h' =>
      if init_done h' && (g' =? g) && same_name m n
      then spec_local race_safe h' g n ++ [Holder (Some (pushes h')) (bound_to n want) beh]
      else spec_local race_safe h' g n
  | OCancel c :: h' => without c (spec_local race_safe h' g n)
  | OGo p s :: h' =>
      if s =? g then (if race_safe then [] else map inherited (spec_local race_safe h' p n))
      else spec_local race_safe h' g n
  | OExit s :: h' => if s =? g then [] else spec_local race_safe h' g n
  | _ :: h' => spec_local race_safe h' g n
  end.

(** The mock expected to answer: the last local one, else the last global one. *)
Definition spec_mock (race_safe : bool) (h : list op) (g : nat) (n : name) : option holder :=
  newest (match spec_local race_safe h g n with [] => spec_global h n | l => l end).

(** The recorders / interceptors expected to run: local ones then global ones. *)
Definition spec_handlers (race_safe : bool) (h : list op) (g : nat) (n : name) : list holder :=
  spec_local race_safe h g n ++ spec_global h n.

(** A handler acts on a call with receiver [recv] when it is not bound, or bound to it. *)
Definition acts_on (recv : option nat) (r : holder) : Prop := h_want r = None \/ h_want r = recv.

Definition is_trace (o : op) : bool :=
  match o with OTraceBegin _ _ | OTraceEnd _ => true | _ => false end.
(** Histories without trace.Trace (its effect on registrations is C14). *)
Definition trace_free (h : list op) : Prop := Forall (fun o => is_trace o = false) h.

Definition is_mock_name (n : name) : bool :=
  match n with Mock _ | VarMock _ | VarPtrMock _ => true | _ => false end.
Definition is_rec_name (n : name) : bool :=
  match n with Rec _ => true | _ => false end.

(** The goroutine that made registration number c. *)
Fixpoint registrant (h : list op) (c : nat) : option nat :=
  match h with
  | [] => None
  | OPush g _ _ _ :: h' => if c =? pushes h' then Some g else registrant h' c
  | _ :: h' => registrant h' c
  end.

(** The goroutine whose registrations an operation may touch, after init. *)
Definition concerns (h : list op) (o : op) (g : nat) : Prop :=
  match o with
  | OInitDone => False
  | OPush p _ _ _ => g = p
  | OCancel c => registrant h c = Some g
  | OGo _ s => g = s
  | OExit p => g = p
  | OTraceBegin _ _ => False
  | OTraceEnd p => g = p
  end.

(** Every registration brings its own handler. *)
Definition distinct_handlers (h : list op) : Prop :=
  forall g1 n1 w1 g2 n2 w2 b,
    In (OPush g1 n1 w1 b) h -> In (OPush g2 n2 w2 b) h -> n1 = n2 /\ w1 = w2.

(** What a registration does, forgetting who can cancel it. *)
Definition effect_of (r : holder) : option nat * nat := (h_want r, h_beh r).

(** An operation that neither starts nor ends a trace in g, nor ends g. *)
Definition quiet (g : nat) (o : op) : Prop :=
  match o with
  | OTraceBegin p _ | OTraceEnd p | OExit p => p <> g
  | _ => True
  end.
