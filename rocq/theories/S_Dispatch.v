(** * Specification of dispatch (C07, C10, C16). *)
From Coq Require Import List Arith Bool.
From Verif Require Import M_Dispatch.
Import ListNotations.

(** The handlers concerned by a call. *)
Definition opt_dec : forall a b : option nat, {a = b} + {a <> b}.
Proof. decide equality; apply Nat.eq_dec. Defined.
(** Not bound to an instance, or bound to this one. *)
Definition aims (want recv : option nat) : bool :=
  match want with None => true | _ => if opt_dec want recv then true else false end.
Definition applicable (recv : option nat) (hs : list hnd) : list hnd :=
  filter (fun h => aims (d_want h) recv) hs.

Definition stops (h : hnd) : bool := match d_pre h with Some (_, true) => true | _ => false end.

(** The handlers before the first one that stops the call. *)
Fixpoint before_stop (hs : list hnd) : list hnd :=
  match hs with [] => [] | h :: r => if stops h then [] else h :: before_stop r end.

Definition pre_data (h : hnd) : option nat := option_map fst (d_pre h).

(** Expected post events: each non-stopping handler with a post function, with
    the data its own pre returned, in reverse order. *)
Definition expected_posts (hs : list hnd) : list event :=
  rev (map (fun h => EPost (d_id h) (pre_data h)) (filter d_post (before_stop hs))).

(** Expected pre events: every handler up to and including the first that stops. *)
Fixpoint through_stop (hs : list hnd) : list hnd :=
  match hs with [] => [] | h :: r => h :: (if stops h then [] else through_stop r) end.
Definition has_pre (h : hnd) : bool := match d_pre h with Some _ => true | None => false end.
Definition expected_pres (hs : list hnd) : list event :=
  map (fun h => EPre (d_id h)) (filter has_pre (through_stop hs)).

(** The handlers of a call, in the order they are consulted. *)
Definition consulted (s : call_state) : list hnd :=
  applicable (cs_recv s) (cs_recs s) ++
  (if cs_depth s <=? 1 then applicable (cs_recv s) (cs_inters s) else []).

(** Was the call replaced? *)
Definition replaced (s : call_state) : Prop :=
  (exists h, In h (consulted s) /\ stops h = true) \/
  ((forall h, In h (consulted s) -> stops h = false) /\
   exists want, cs_mock s = Some (want, true) /\ (want = None \/ want = cs_recv s)).

Fixpoint count_body (es : list event) : nat :=
  match es with [] => 0 | EBody :: r => S (count_body r) | _ :: r => count_body r end.

(** The whole call: pre handlers, the mock unless a handler stopped the call, the body unless
    it was replaced, post handlers. *)
Definition mock_asked (s : call_state) : option bool :=
  match cs_mock s with Some (want, ok) => if aims want (cs_recv s) then Some ok else None | None => None end.
Definition expected_call (s : call_state) : list event :=
  let stopped := existsb stops (consulted s) in
  expected_pres (consulted s) ++
  (if stopped then [] else match mock_asked s with Some _ => [EMock] | None => [] end) ++
  (if stopped then [] else match mock_asked s with Some true => [] | _ => [EBody] end) ++
  expected_posts (consulted s).

(** A variable read: every recorder, then every interceptor; no handler can stop it. *)
Definition expected_var_read (mock : bool) (hs : list hnd) : list event :=
  map (fun h => EPre (d_id h)) (filter has_pre hs) ++ (if mock then [EMock] else []) ++
  map (fun h => EPost (d_id h) (pre_data h)) (filter d_post hs).
