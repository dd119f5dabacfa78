(** * Specification for C09 and C11, independent of the interpreter. *)
From Coq Require Import List Arith Bool ZArith.
From Verif Require Import M_Stack M_Interp.
Import ListNotations.

(** ** C09 *)
(** Handlers that have started and not ended. *)
Fixpoint open_handlers (l : list event) : Z :=
  match l with
  | [] => 0
  | EOpen :: r => 1 + open_handlers r
  | EClose :: r => -1 + open_handlers r
  | _ :: r => open_handlers r
  end.

(** General interceptors are only invoked when no handler is running. *)
Definition guarded (l : list event) : Prop :=
  forall l1 id l2, l = l1 ++ EGeneral id :: l2 -> open_handlers l1 = 0%Z.

(** ** C11: the call tree of a program, defined by a direct evaluation that knows
    nothing of traps, stacks or depths. *)
Inductive ctree := Call (f : nat) (panicked : bool) (ch : list ctree).

Section Calls.
  Variable body : nat -> list stmt.
  (** Is the original replaced (by a mock or a stopping handler)? *)
  Variable replaced : nat -> bool.
  Variable allowed : nat -> bool.

  Fixpoint calls (fuel : nat) (l : list stmt) : option (list ctree * bool) :=
    match fuel with
    | 0 => None
    | S n =>
        match l with
        | [] => Some ([], false)
        | x :: r =>
            match
              (match x with
               | SCall f =>
                   match (if replaced f then Some ([], false) else calls n (body f)) with
                   | None => None
                   | Some (ts, p) => Some ((if allowed f then [Call f p ts] else ts), p)
                   end
               | SPanic => Some ([], true)
               | STry b => match calls n b with None => None | Some (ts, _) => Some (ts, false) end
               | SFinally b fin =>
                   match calls n b with
                   | None => None
                   | Some (t1, p1) =>
                       match calls n fin with
                       | None => None
                       | Some (t2, p2) => Some (t1 ++ t2, p1 || p2)
                       end
                   end
               end)
            with
            | None => None
            | Some (ts, true) => Some (ts, true)
            | Some (ts, false) =>
                match calls n r with
                | None => None
                | Some (ts', p) => Some (ts ++ ts', p)
                end
            end
        end
    end.
End Calls.

(** How a finished call tree is exported. *)
Fixpoint show (t : ctree) : xtree :=
  match t with Call f p ch => X (Some f) false 0 (Some (0, p)) (map show ch) end.

(** Comparison up to the Panic flags. *)
Fixpoint erase (x : xtree) : xtree :=
  match x with
  | X fn running args res ch =>
      X fn running args (match res with Some (r, _) => Some (r, false) | None => None end) (map erase ch)
  end.

(** Does a statement contain no call inside a deferred block? *)
Fixpoint has_call (s : stmt) : bool :=
  match s with
  | SCall _ => true
  | SPanic => false
  | STry b => existsb has_call b
  | SFinally b fin => existsb has_call b || existsb has_call fin
  end.
Fixpoint quiet_defers (s : stmt) : bool :=
  match s with
  | SCall _ | SPanic => true
  | STry b => forallb quiet_defers b
  | SFinally b fin => forallb quiet_defers b && negb (existsb has_call fin)
  end.

(** ** Hypotheses of the C11 theorems on the registered handlers. *)
(** No run of this code, in any state, panics. *)
Definition never_panics (P : prog) (b : list stmt) : Prop :=
  forall n pk s s' p, exec n P pk b s = Some (s', p) -> p = false.

(** A recorder or interceptor that never replaces the call and never panics. *)
Definition observes (P : prog) (h : handler) : Prop :=
  (forall b stop, h_pre h = Some (b, stop) -> stop = false /\ never_panics P b) /\
  (forall b, h_post h = Some b -> never_panics P b).

(** Either all of these have a post handler or none has (otherwise a post may be
    called through nil, see C07). *)
Definition same_posts (hs : list handler) : Prop :=
  (forall h, In h hs -> h_post h <> None) \/ (forall h, In h hs -> h_post h = None).

Record benign (P : prog) : Prop := {
  b_rec : forall f h, In h (p_lrec P f ++ p_grec P f) -> observes P h;
  b_int : forall h, In h (p_lint P ++ p_gint P) -> observes P h;
  b_rec_posts : forall f, same_posts (p_lrec P f ++ p_grec P f);
  b_int_posts : same_posts (p_lint P ++ p_gint P);
  b_mock : forall f b ok, p_lmock P f = Some (b, ok) \/ p_gmock P f = Some (b, ok) -> never_panics P b
}.

(** The mock registered for f, the goroutine's own first. *)
Definition mock_of (P : prog) (with_local : bool) (f : nat) : option mock :=
  match (if with_local then p_lmock P f else None) with Some m => Some m | None => p_gmock P f end.
Definition mocked (P : prog) (with_local : bool) (f : nat) : bool :=
  match mock_of P with_local f with Some (_, ok) => ok | None => false end.

(** The exports delivered so far. *)
Fixpoint exports (l : list event) : list (list xtree) :=
  match l with [] => [] | EExport xs :: r => xs :: exports r | _ :: r => exports r end.

(** The same tree, with a call flagged when it panicked or when it was made by a
    deferred function while a panic was in progress ([pk]): what the exported
    Panic flags actually say. *)
Section CallsFlagged.
  Variable body : nat -> list stmt.
  Variable replaced : nat -> bool.
  Variable allowed : nat -> bool.

  Fixpoint calls_flagged (fuel : nat) (pk : bool) (l : list stmt) : option (list ctree * bool) :=
    match fuel with
    | 0 => None
    | S n =>
        match l with
        | [] => Some ([], false)
        | x :: r =>
            match
              (match x with
               | SCall f =>
                   match (if replaced f then Some ([], false) else calls_flagged n pk (body f)) with
                   | None => None
                   | Some (ts, p) => Some ((if allowed f then [Call f (pk || p) ts] else ts), p)
                   end
               | SPanic => Some ([], true)
               | STry b => match calls_flagged n pk b with None => None | Some (ts, _) => Some (ts, false) end
               | SFinally b fin =>
                   match calls_flagged n pk b with
                   | None => None
                   | Some (t1, p1) =>
                       match calls_flagged n (pk || p1) fin with
                       | None => None
                       | Some (t2, p2) => Some (t1 ++ t2, p1 || p2)
                       end
                   end
               end)
            with
            | None => None
            | Some (ts, true) => Some (ts, true)
            | Some (ts, false) =>
                match calls_flagged n pk r with
                | None => None
                | Some (ts', p) => Some (ts ++ ts', p)
                end
            end
        end
    end.
End CallsFlagged.

(** What a trace of function f delivers: one root, f itself, carrying the tree of
    the calls its body makes (f's own entry is not subject to the filter). *)
Definition tree_ok (P : prog) (with_local : bool) (f : nat) (xs : list xtree) : Prop :=
  exists c ts q m, p_trace P f = Some c /\
    (if mocked P with_local f then Some ([], false)
     else calls (p_body P) (mocked P with_local) (c_filter c) m (p_body P f)) = Some (ts, q) /\
    exists x, xs = [x] /\ erase x = erase (show (Call f q ts)) /\
      ((forall g, forallb quiet_defers (p_body P g) = true) -> x = show (Call f q ts)).

(** Traces in a row; the first ends the goroutine's own registrations (C14). *)
Fixpoint traces_ok (P : prog) (with_local : bool) (fs : list nat) (xss : list (list xtree)) : Prop :=
  match fs, xss with
  | [], [] => True
  | f :: fs, xs :: xss => tree_ok P with_local f xs /\ traces_ok P false fs xss
  | _, _ => False
  end.
