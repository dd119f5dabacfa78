(** * Theorems about a goroutine running an instrumented program (C09, C11).
    Model: M_Interp; specification: S_Interp. *)
From Coq Require Import List Arith Bool ZArith Lia.
From Verif Require Import M_Stack M_Interp S_Interp P_Interp P_Interp2 P_Interp3.
Import ListNotations.

(** ** C09: dispatching is re-entrancy safe. *)

(** Whatever the program and its handlers do, and whether or not they panic, the
    trapping depth after equals the one before. *)
Theorem C09_depth_restored :
  forall n P pk l s s' p, exec n P pk l s = Some (s', p) -> trapping s' = trapping s.
Proof. intros n P pk l s s' p. apply exec_depth. Qed.
Print Assumptions C09_depth_restored.

(** No general interceptor is invoked while a handler is running, provided no
    Trace without a sink is used (trap.go:304 returns the post handlers without
    the depth increment; see the refutation). *)
Theorem C09_no_general_in_handlers_partial :
  forall n P with_local pk l s' p,
    (forall g c, p_trace P g = Some c -> c_sink c = true) ->
    exec n P pk l (init_st with_local) = Some (s', p) -> guarded (log s').
Proof. exact exec_guarded. Qed.
Print Assumptions C09_no_general_in_handlers_partial.

Definition no_handlers : nat -> list handler := fun _ => [].
Definition no_mock : nat -> option mock := fun _ => None.
Definition table (l : list (nat * list stmt)) (f : nat) : list stmt :=
  match find (fun x => Nat.eqb (fst x) f) l with Some (_, b) => b | None => [] end.

(** The post handler of a recorder on Trace itself runs with depth 0 when Trace
    has no sink: the intercepted functions it calls invoke the general
    interceptors from within that handler. *)
Theorem C09_nosink_trace_refuted :
  exists n P l s' p, exec n P false l (init_st false) = Some (s', p) /\ ~ guarded (log s').
Proof.
  exists 20, (Prog (table []) (fun f => if Nat.eqb f 0 then Some (Cfg false (fun _ => true)) else None)
       no_mock no_mock no_handlers (fun f => if Nat.eqb f 0 then [Handler 5 (Some ([], false)) (Some [SCall 1])] else []) []
       [Handler 9 (Some ([], false)) None]), [SCall 0].
  eexists _, _. split; [vm_compute; reflexivity|].
  intros G. specialize (G [EOpen; EClose; EGeneral 9; EOpen; EClose; EBody 0; EOpen] 9
    [EOpen; EClose; EBody 1; EClose]). vm_compute in G. discriminate (G eq_refl).
Qed.
Print Assumptions C09_nosink_trace_refuted.

(** Non-trivial: an interceptor calling an intercepted function from pre and
    post, around nested calls, one of which panics. *)
Definition busy_prog : prog :=
  Prog (table [(0, [STry [SCall 1]; SCall 2]); (1, [SCall 2; SPanic])]) (fun _ => None)
       no_mock no_mock no_handlers no_handlers []
       [Handler 9 (Some ([SCall 3], false)) (Some [SCall 4])].
Example C09_example :
  option_map (fun r => (trapping (fst r), length (filter (fun e => match e with EGeneral _ => true | _ => false end) (log (fst r)))))
    (exec 20 busy_prog false [SCall 0] (init_st false)) = Some (0, 8).
Proof. vm_compute. reflexivity. Qed.

(** ** C11: a trace is the call tree. *)

(** Under handlers that observe without replacing or panicking (they may call
    intercepted functions, be traced, recover, ...) and mocks that do not panic,
    each trace delivers exactly the call tree of its body: one entry per allowed
    call, in order, under the nearest allowed caller, finished, flagged Panic
    when it panicked.  Flags are exact when deferred functions make no calls, and
    unconstrained otherwise (see the refutations for all these hypotheses). *)
Theorem C11_call_tree_partial :
  forall P n with_local f c s' p, benign P -> p_trace P f = Some c -> c_sink c = true ->
    exec n P false [SCall f] (init_st with_local) = Some (s', p) ->
    exists ts m,
      (if mocked P with_local f then Some ([], false)
       else calls (p_body P) (mocked P with_local) (c_filter c) m (p_body P f)) = Some (ts, p) /\
      exists x, exports (log s') = [[x]] /\ erase x = erase (show (Call f p ts)) /\
        ((forall g, forallb quiet_defers (p_body P g) = true) -> x = show (Call f p ts)).
Proof.
  intros P n wl f c s' p B Tc Sc H.
  apply (trace_correct n P f c (init_st wl) s' p B Tc Sc) in H.
  - destruct wl; exact H.
  - destruct wl; split; simpl; auto; repeat split; auto.
Qed.
Print Assumptions C11_call_tree_partial.

(** The tree does not depend on the fuel with which the specification is run. *)
Theorem C11_spec_deterministic :
  forall body replaced allowed n m l a b,
    calls body replaced allowed n l = Some a -> calls body replaced allowed m l = Some b -> a = b.
Proof. exact calls_agree. Qed.

(** The same for any number of traces in a row, each recovered from: one export
    each, in order. *)
Theorem C11_consecutive_traces_partial :
  forall P fs n with_local s' p, benign P ->
    (forall f, In f fs -> exists c, p_trace P f = Some c /\ c_sink c = true) ->
    exec n P false (map (fun f => STry [SCall f]) fs) (init_st with_local) = Some (s', p) ->
    p = false /\ traces_ok P with_local fs (exports (log s')).
Proof.
  intros P fs n wl s' p B Tc H.
  destruct (traces_correct P B fs n (init_st wl) s' p Tc) as (-> & xss & X & O); auto.
  - intros f _. destruct wl; split; simpl; auto; repeat split; auto.
  - split; auto. rewrite X. destruct wl; exact O.
Qed.
Print Assumptions C11_consecutive_traces_partial.

(** Non-trivial instance: an interceptor whose handlers call intercepted
    functions, a filter hiding function 3, a mocked function 4, a recovered panic. *)
Definition traced_prog : prog :=
  Prog (table [(0, [STry [SCall 1]; SCall 2]); (1, [SCall 2; SCall 3; SPanic]); (3, [SCall 2; SCall 4]); (4, [SCall 1]); (7, [SCall 2])])
       (fun f => if Nat.eqb f 0 then Some (Cfg true (fun g => negb (Nat.eqb g 3))) else None)
       (fun f => if Nat.eqb f 4 then Some ([STry [SCall 2]], true) else None) no_mock
       (fun f => if Nat.eqb f 2 then [Handler 5 None (Some [STry [SCall 8]])] else []) no_handlers
       [Handler 9 (Some ([STry [SCall 7]], false)) (Some [STry [SCall 7]])] [].
Lemma try_never_panics P b : never_panics P [STry b].
Proof.
  intros n pk s s' p H. destruct n as [|n]; [discriminate|]. cbn [exec] in H.
  destruct (exec n P pk b s) as [[s1 q]|]; [|discriminate]. destruct n; [discriminate|]. now injection H as _ <-.
Qed.

Example C11_example_benign : benign traced_prog.
Proof.
  assert (N : forall b, never_panics traced_prog [STry b]) by apply try_never_panics.
  split.
  - intros f h I. simpl in I. unfold no_handlers in I. rewrite app_nil_r in I.
    destruct (Nat.eqb f 2); [destruct I as [<-|[]]|destruct I]. split; simpl; [discriminate|].
    intros b E. injection E as <-. apply N.
  - intros h [<-|[]]. split; simpl.
    + intros b stop E. injection E as <- <-. split; auto.
    + intros b E. injection E as <-. apply N.
  - intros f. simpl. unfold no_handlers. rewrite app_nil_r. left. intros h I.
    destruct (Nat.eqb f 2); [destruct I as [<-|[]]|destruct I]. discriminate.
  - left. intros h [<-|[]]. discriminate.
  - intros f b ok [E|E]; [|discriminate]. simpl in E. destruct (Nat.eqb f 4); [|discriminate]. injection E as <- <-. apply N.
Qed.
Example C11_example :
  option_map (fun r => exports (log (fst r))) (exec 30 traced_prog false [SCall 0] (init_st true))
  = Some [[show (Call 0 false [Call 1 true [Call 2 false []; Call 2 false []; Call 4 false []]; Call 2 false []])]].
Proof. vm_compute. reflexivity. Qed.

(** *** Refutations of the unrestricted property *)

(** What the trace of [f] should show, compared up to Panic flags. *)
Definition shows_tree (P : prog) (f : nat) (s' : st) : Prop :=
  exists c ts q m, p_trace P f = Some c /\
    calls (p_body P) (mocked P false) (c_filter c) m (p_body P f) = Some (ts, q) /\
    exists x, exports (log s') = [[x]] /\ erase x = erase (show (Call f q ts)).

Definition trace0 (f : nat) : option cfg := if Nat.eqb f 0 then Some (Cfg true (fun _ => true)) else None.

Lemma shows_tree_calls P f s' n ts q x c : p_trace P f = Some c ->
  calls (p_body P) (mocked P false) (c_filter c) n (p_body P f) = Some (ts, q) ->
  exports (log s') = [[x]] -> shows_tree P f s' -> erase x = erase (show (Call f q ts)).
Proof.
  intros Tc C X (c' & ts' & q' & m & Tc' & C' & x' & X' & E). rewrite Tc in Tc'. injection Tc' as <-.
  pose proof (calls_agree _ _ _ _ _ _ _ _ C C') as A. injection A as -> ->. congruence.
Qed.

(** A mock that panics (and is recovered from by the caller): its entry is never
    finished and stays on top, so that later calls of the caller are shown below
    it.  trap.go:449-456 calls the mock after PushNew but before post is returned.
    (Function 1's mock panics; function 2 is called after recovering.) *)
Theorem C11_panicking_mock_refuted :
  exists P n s' p, exec n P false [SCall 0] (init_st false) = Some (s', p) /\
    p_body P 0 = [STry [SCall 1]; SCall 2] /\ p = false /\
    exports (log s') = [[X (Some 0) false 0 (Some (0, false)) [X (Some 1) true 0 None [X (Some 2) false 0 (Some (0, false)) []]]]].
Proof.
  exists (Prog (table [(0, [STry [SCall 1]; SCall 2])]) trace0 no_mock
     (fun f => if Nat.eqb f 1 then Some ([SPanic], true) else None) no_handlers no_handlers [] []), 20.
  eexists _, _. split; [vm_compute; reflexivity|]. repeat split; reflexivity.
Qed.
Print Assumptions C11_panicking_mock_refuted.

(** A call made by a deferred function while a panic is in progress is flagged
    Panic although it returned (XgoPeekPanic looks at the goroutine's panic). *)
Theorem C11_deferred_call_flag_refuted :
  exists P n s' p ts q, exec n P false [SCall 0] (init_st false) = Some (s', p) /\ benign P /\
    calls (p_body P) (mocked P false) (fun _ => true) n (p_body P 0) = Some (ts, q) /\
    ts = [Call 1 false []] /\ exports (log s') = [[X (Some 0) false 0 (Some (0, false)) [X (Some 1) false 0 (Some (0, true)) []]]].
Proof.
  exists (Prog (table [(0, [STry [SFinally [SPanic] [SCall 1]]])]) trace0 no_mock no_mock no_handlers no_handlers [] []), 20.
  eexists _, _, _, _. split; [vm_compute; reflexivity|]. split; [|repeat split; reflexivity].
  split; simpl; unfold no_handlers, no_mock; simpl.
  - intros ? ? [].
  - intros ? [].
  - intros _. left. intros ? [].
  - left. intros ? [].
  - intros ? ? ? [E|E]; discriminate.
Qed.
Print Assumptions C11_deferred_call_flag_refuted.

(** A recorder whose post handler panics: the entry is never finished and Top is
    not restored, so that later siblings are shown below it. *)
Theorem C11_panicking_post_refuted :
  exists P n s' p, exec n P false [SCall 0] (init_st false) = Some (s', p) /\
    (forall f, p_lmock P f = None /\ p_gmock P f = None) /\ ~ shows_tree P 0 s'.
Proof.
  set (P := Prog (table [(0, [STry [SCall 1]; SCall 2])]) trace0 no_mock no_mock no_handlers
     (fun f => if Nat.eqb f 1 then [Handler 5 None (Some [SPanic])] else []) [] []).
  exists P, 20. eexists _, _. split; [vm_compute; reflexivity|]. split; [auto|].
  intros T. eapply (shows_tree_calls P 0 _ 20) in T; try (vm_compute; reflexivity). vm_compute in T. discriminate.
Qed.
Print Assumptions C11_panicking_post_refuted.

(** A call made by a handler is recorded exactly when a recorder of the called
    function stops it: the two programs differ only in that. *)
Definition handler_call_prog (stop : bool) : prog :=
  Prog (table [(0, [SCall 1])]) trace0 no_mock no_mock no_handlers
     (fun f => if Nat.eqb f 1 then [Handler 5 (Some ([SCall 2], false)) None]
               else if Nat.eqb f 2 then [Handler 6 (Some ([], stop)) None] else []) [] [].
Theorem C11_handler_calls_refuted :
  exists n s1 s2, exec n (handler_call_prog false) false [SCall 0] (init_st false) = Some (s1, false) /\
    exec n (handler_call_prog true) false [SCall 0] (init_st false) = Some (s2, false) /\
    exports (log s1) = [[show (Call 0 false [Call 1 false []])]] /\
    exports (log s2) = [[show (Call 0 false [Call 2 false []; Call 1 false []])]].
Proof. exists 20. eexists _, _. split; [vm_compute; reflexivity|]. split; [vm_compute; reflexivity|]. repeat split; reflexivity. Qed.
Print Assumptions C11_handler_calls_refuted.
