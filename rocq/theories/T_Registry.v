(** * Theorems: registrations of mocks, recorders and interceptors
    (C01-C06, C14, C15, C18).  Model: M_Registry; specification: S_Registry. *)
From Coq Require Import List Arith Bool.
From Verif Require Import M_Registry S_Registry P_Registry P_Registry2.
Import ListNotations.

(** A non-trivial history used in the examples (newest first): main registers
    a global mock before init, then two mocks for function 1, forks goroutine 5
    (which registers its own), and cancels its first mock. *)
Definition demo : list op :=
  [ OCancel 1; OPush 5 (Mock 1) None 40; OGo 0 5; OPush 0 (Mock 1) None 30;
    OPush 0 (Mock 1) None 20; OInitDone; OPush 0 (Mock 1) None 10 ].

(** ** C01: the mock in force is the last live registration. *)
Theorem C01_last_live_mock_wins :
  forall race_safe h w g n,
    run race_safe h = Some w -> trace_free h -> is_mock_name n = true ->
    last_mock w g n = spec_mock race_safe h g n.
Proof. exact C01_lemma. Qed.
Print Assumptions C01_last_live_mock_wins.

Example C01_example :
  exists w, run false demo = Some w /\ trace_free demo /\
    option_map h_beh (last_mock w 0 (Mock 1)) = Some 30 /\
    option_map h_beh (last_mock w 5 (Mock 1)) = Some 40 /\
    option_map h_beh (last_mock w 9 (Mock 1)) = Some 10.
Proof. apply ex_run. split; [repeat constructor|]. vm_compute. auto. Qed.

(** ** C02: cancelling removes exactly that registration, in any order. *)
Theorem C02_cancel_succeeds_iff_live :
  forall race_safe h w c r,
    run race_safe h = Some w -> outcome_of race_safe h (OCancel c) = Some r ->
    c < pushes h /\
    (r = Ok <-> ~ In (OCancel c) h /\ (init_done h = true -> pre_init_pushes h <= c)).
Proof. exact cancel_outcome. Qed.
Print Assumptions C02_cancel_succeeds_iff_live.

Theorem C02_cancel_always_defined :
  forall race_safe h w c,
    run race_safe h = Some w -> c < pushes h ->
    exists r, outcome_of race_safe h (OCancel c) = Some r.
Proof. exact cancel_defined. Qed.
Print Assumptions C02_cancel_always_defined.

Theorem C02_cancel_removes_exactly_one :
  forall race_safe h w c w',
    run race_safe h = Some w -> run race_safe (OCancel c :: h) = Some w' ->
    (forall g n, local_list w' g n = local_list w g n \/
       exists a x b, local_list w g n = a ++ x :: b /\ h_id x = Some c /\
                     local_list w' g n = a ++ b) /\
    (forall n, w_global w' n = w_global w n \/
       exists a x b, w_global w n = a ++ x :: b /\ h_id x = Some c /\
                     w_global w' n = a ++ b) /\
    (forall g n x, In x (local_list w' g n) -> h_id x <> Some c).
Proof. exact cancel_exact. Qed.
Print Assumptions C02_cancel_removes_exactly_one.

Theorem C02_failed_cancel_changes_nothing :
  forall race_safe h w c w',
    run race_safe h = Some w -> step race_safe w (OCancel c) = Some (w', Panicked) -> w' = w.
Proof. exact cancel_panic. Qed.
Print Assumptions C02_failed_cancel_changes_nothing.

Example C02_example :
  outcome_of false demo (OCancel 3) = Some Ok /\        (* own registration of goroutine 5 *)
  outcome_of false demo (OCancel 1) = Some Panicked /\  (* second cancellation *)
  outcome_of false demo (OCancel 0) = Some Panicked /\  (* global, after init *)
  outcome_of false demo (OCancel 2) = Some Ok.
Proof. vm_compute. auto. Qed.

(** ** C03: registrations are isolated between goroutines. *)
Theorem C03_only_the_concerned_goroutine_changes :
  forall race_safe h w o w' r g n,
    run race_safe h = Some w -> step race_safe w o = Some (w', r) ->
    local_list w' g n <> local_list w g n -> concerns h o g.
Proof. exact isolation. Qed.
Print Assumptions C03_only_the_concerned_goroutine_changes.

Theorem C03_globals_fixed_after_init :
  forall race_safe h w o w' r n,
    run race_safe h = Some w -> step race_safe w o = Some (w', r) -> init_done h = true ->
    w_global w' n = w_global w n.
Proof. exact global_after_init. Qed.
Print Assumptions C03_globals_fixed_after_init.

Example C03_example :
  exists w w', run false demo = Some w /\
    step false w (OPush 5 (Mock 1) None 50) = Some (w', Ok) /\
    local_list w' 5 (Mock 1) <> local_list w 5 (Mock 1) /\
    local_list w' 0 (Mock 1) = local_list w 0 (Mock 1).
Proof.
  destruct (ex_run (run false demo) (fun w => exists w',
    step false w (OPush 5 (Mock 1) None 50) = Some (w', Ok) /\
    local_list w' 5 (Mock 1) <> local_list w 5 (Mock 1) /\
    local_list w' 0 (Mock 1) = local_list w 0 (Mock 1))) as (w & E & w' & H); [|eauto].
  apply ex_step. vm_compute. split; [reflexivity|]. split; [intro H; discriminate H|reflexivity].
Qed.

(** ** C04: a new goroutine inherits a snapshot. *)
Theorem C04_child_inherits_everything_but_recorder_binding_partial :
  forall h w p s w' r n,
    run false h = Some w -> step false w (OGo p s) = Some (w', r) -> is_rec_name n = false ->
    map effect_of (local_list w' s n) = map effect_of (local_list w p n).
Proof. exact inherit_exact. Qed.
Print Assumptions C04_child_inherits_everything_but_recorder_binding_partial.

Theorem C04_child_inherits_recorder_handlers_partial :
  forall h w p s w' r n,
    run false h = Some w -> step false w (OGo p s) = Some (w', r) ->
    map h_beh (local_list w' s n) = map h_beh (local_list w p n).
Proof. exact inherit_handlers. Qed.
Print Assumptions C04_child_inherits_recorder_handlers_partial.

(** The full statement fails: a recorder bound to an instance loses its binding
    in the child (init.go:107-122 copies only pre and post). *)
Theorem C04_recorder_binding_refuted :
  exists h w p s w' r n,
    run false h = Some w /\ step false w (OGo p s) = Some (w', r) /\
    map effect_of (local_list w' s n) <> map effect_of (local_list w p n).
Proof.
  exists [OPush 0 (Rec 1) (Some 7) 20; OInitDone].
  destruct (ex_run (run false [OPush 0 (Rec 1) (Some 7) 20; OInitDone]) (fun w => exists w',
    step false w (OGo 0 5) = Some (w', Ok) /\
    map effect_of (local_list w' 5 (Rec 1)) <> map effect_of (local_list w 0 (Rec 1))))
    as (w & E & w' & H & K).
  - apply ex_step. vm_compute. split; [reflexivity|]. intro H; discriminate H.
  - exists w, 0, 5, w', Ok, (Rec 1). auto.
Qed.
Print Assumptions C04_recorder_binding_refuted.

Example C04_example :
  exists w w', run false demo = Some w /\ step false w (OGo 5 6) = Some (w', Ok) /\
    map effect_of (local_list w' 6 (Mock 1)) = [(None, 20); (None, 30); (None, 40)].
Proof.
  destruct (ex_run (run false demo) (fun w => exists w', step false w (OGo 5 6) = Some (w', Ok) /\
    map effect_of (local_list w' 6 (Mock 1)) = [(None, 20); (None, 30); (None, 40)]))
    as (w & E & w' & H); [|eauto].
  apply ex_step. vm_compute. auto.
Qed.

(** ** C05: instance-bound handlers only act on their instance. *)
Theorem C05_bound_mock_only_on_its_instance :
  forall race_safe h w g pc recv x p want,
    run race_safe h = Some w -> distinct_handlers h ->
    applied_mock w g pc recv = Some x ->
    In (OPush p (Mock pc) want (h_beh x)) h ->
    want = None \/ want = recv.
Proof. exact mock_bound. Qed.
Print Assumptions C05_bound_mock_only_on_its_instance.

(** Recorders: proved for the goroutine that registered them (holders that
    still have their cancel function), missing: descendants. *)
Theorem C05_bound_recorder_in_own_goroutine_partial :
  forall race_safe h w g pc recv x p want,
    run race_safe h = Some w -> distinct_handlers h ->
    In x (applied_recorders w g pc recv) ->
    (exists c, h_id x = Some c) ->
    In (OPush p (Rec pc) want (h_beh x)) h ->
    want = None \/ want = recv.
Proof. exact recorder_bound. Qed.
Print Assumptions C05_bound_recorder_in_own_goroutine_partial.

Theorem C05_bound_recorder_in_child_refuted :
  exists h w g pc recv x p q,
    run false h = Some w /\ distinct_handlers h /\
    In x (applied_recorders w g pc recv) /\
    In (OPush p (Rec pc) (Some q) (h_beh x)) h /\ recv <> Some q.
Proof.
  exists [OGo 0 5; OPush 0 (Rec 1) (Some 7) 20; OInitDone].
  destruct (ex_run (run false [OGo 0 5; OPush 0 (Rec 1) (Some 7) 20; OInitDone]) (fun w =>
    In (Holder None None 20) (applied_recorders w 5 1 (Some 8)))) as (w & E & H); [vm_compute; auto|].
  exists w, 5, 1, (Some 8), (Holder None None 20), 0, 7.
  split; [exact E|]. split.
  - intros g1 n1 v1 g2 n2 v2 b [H0|[H0|[H0|[]]]] [K|[K|[K|[]]]]; try discriminate.
    injection H0 as <- <- <- <-. injection K as <- <- <-. auto.
  - split; [exact H|]. split; [simpl; auto|]. discriminate.
Qed.
Print Assumptions C05_bound_recorder_in_child_refuted.

Example C05_example :
  exists w, run false [OGo 0 5; OPush 0 (Mock 1) (Some 7) 20; OInitDone] = Some w /\
    option_map h_beh (applied_mock w 5 1 (Some 7)) = Some 20 /\
    applied_mock w 5 1 (Some 8) = None /\ applied_mock w 5 1 None = None.
Proof. apply ex_run. vm_compute. auto. Qed.

(** The mock in force answers exactly the calls it acts on; otherwise nothing answers. *)
Theorem C05_mock_applied_exactly :
  forall race_safe h w g pc recv, run race_safe h = Some w -> trace_free h ->
    (forall r, spec_mock race_safe h g (Mock pc) = Some r -> acts_on recv r -> applied_mock w g pc recv = Some r) /\
    (forall r, spec_mock race_safe h g (Mock pc) = Some r -> ~ acts_on recv r -> applied_mock w g pc recv = None) /\
    (spec_mock race_safe h g (Mock pc) = None -> applied_mock w g pc recv = None).
Proof. exact mock_applied. Qed.
Print Assumptions C05_mock_applied_exactly.

(** The recorders run for a call are those of the goroutine's own list, then the global ones,
    that act on it. *)
Theorem C05_recorders_applied_exactly_partial :
  forall race_safe h w g pc recv, run race_safe h = Some w ->
    exists keep, applied_recorders w g pc recv = filter keep (local_list w g (Rec pc) ++ spec_global h (Rec pc)) /\
      (forall r, keep r = true <-> acts_on recv r).
Proof. exact recorders_applied. Qed.
Print Assumptions C05_recorders_applied_exactly_partial.

(** ** C06: registrations made before init finished are global and permanent. *)
Theorem C06_global_in_force_everywhere_forever :
  forall race_safe h2 h w w' n x g,
    run race_safe h = Some w -> init_done h = true -> run race_safe (h2 ++ h) = Some w' ->
    In x (w_global w n) -> In x (handlers w' g n).
Proof. exact global_permanent. Qed.
Print Assumptions C06_global_in_force_everywhere_forever.

Theorem C06_cancel_before_init_removes_everywhere :
  forall race_safe h w c w',
    run race_safe h = Some w -> step race_safe w (OCancel c) = Some (w', Ok) ->
    init_done h = false ->
    exists n a x b, w_global w n = a ++ x :: b /\ h_id x = Some c /\ w_global w' n = a ++ b.
Proof. exact cancel_ok_global. Qed.
Print Assumptions C06_cancel_before_init_removes_everywhere.

Theorem C06_handlers_are_local_then_global :
  forall w g n, handlers w g n = local_list w g n ++ w_global w n.
Proof. exact handlers_app. Qed.
Print Assumptions C06_handlers_are_local_then_global.

Theorem C06_handlers_in_force :
  forall race_safe h w g n, run race_safe h = Some w -> trace_free h ->
    map h_beh (handlers w g n) = map h_beh (spec_handlers race_safe h g n) /\
    (is_rec_name n = false -> handlers w g n = spec_handlers race_safe h g n).
Proof. intros. split; [now apply recorders_listed|now apply interceptors_listed]. Qed.
Print Assumptions C06_handlers_in_force.

Theorem C06_global_mock_answers_everywhere :
  forall race_safe h w g n, run race_safe h = Some w -> local_list w g n = [] ->
    last_mock w g n = newest (spec_global h n).
Proof. intros rs h w g n H L. unfold last_mock. rewrite L, newest_last, (run_global _ _ _ H). reflexivity. Qed.
Print Assumptions C06_global_mock_answers_everywhere.

Example C06_example :
  exists w, run false demo = Some w /\ init_done demo = true /\
    In (Holder (Some 0) None 10) (w_global w (Mock 1)) /\
    outcome_of false demo (OCancel 0) = Some Panicked /\
    outcome_of false [OPush 0 (Rec 3) None 1; OPush 0 (Rec 3) None 2] (OCancel 0) = Some Ok.
Proof. apply ex_run. vm_compute. auto. Qed.

(** ** C14: tracing and registrations. *)
Theorem C14_trace_start_neutral_partial :
  forall race_safe h w g sink w' r,
    run race_safe h = Some w -> step race_safe w (OTraceBegin g sink) = Some (w', r) ->
    forall g' n, last_mock w' g' n = last_mock w g' n /\ handlers w' g' n = handlers w g' n.
Proof. exact trace_begin_neutral. Qed.
Print Assumptions C14_trace_start_neutral_partial.

Theorem C14_trace_end_keeps_other_goroutines_partial :
  forall race_safe h w g w' r,
    run race_safe h = Some w -> step race_safe w (OTraceEnd g) = Some (w', r) ->
    forall g' n, g' <> g ->
      last_mock w' g' n = last_mock w g' n /\ handlers w' g' n = handlers w g' n.
Proof. exact trace_end_others. Qed.
Print Assumptions C14_trace_end_keeps_other_goroutines_partial.

(** The full statement fails: a mock registered before trace.Trace is lost when
    Trace returns (trap.go:446 detaches the goroutine's data). *)
Theorem C14_trace_keeps_registrations_refuted :
  exists h w w',
    run false h = Some w /\
    run false (OTraceEnd 0 :: OTraceBegin 0 true :: h) = Some w' /\
    last_mock w 0 (Mock 1) <> None /\ last_mock w' 0 (Mock 1) = None.
Proof.
  exists [OPush 0 (Mock 1) None 20; OInitDone].
  destruct (ex_run (run false [OPush 0 (Mock 1) None 20; OInitDone])
    (fun w => last_mock w 0 (Mock 1) <> None)) as (w & E & H); [vm_compute; intro H; discriminate H|].
  destruct (ex_run (run false (OTraceEnd 0 :: OTraceBegin 0 true :: [OPush 0 (Mock 1) None 20; OInitDone]))
    (fun w => last_mock w 0 (Mock 1) = None)) as (w' & E' & H'); [vm_compute; reflexivity|].
  exists w, w'. auto.
Qed.
Print Assumptions C14_trace_keeps_registrations_refuted.

(** ** C15: tracing ends when Trace returns. *)
Theorem C15_trace_with_sink_ends_partial :
  forall race_safe h body w w' g,
    run race_safe h = Some w -> tracing w g = false ->
    Forall (quiet g) body ->
    run race_safe (OTraceEnd g :: body ++ OTraceBegin g true :: h) = Some w' ->
    tracing w' g = false.
Proof. exact trace_sink_ends. Qed.
Print Assumptions C15_trace_with_sink_ends_partial.

(** Until it returns the goroutine is tracing, whatever it and the other goroutines register,
    cancel, start or trace meanwhile; and nothing another goroutine does starts or stops it. *)
Theorem C15_tracing_until_the_end :
  forall race_safe h body w' g,
    Forall (quiet g) body ->
    run race_safe (body ++ OTraceBegin g true :: h) = Some w' -> tracing w' g = true.
Proof. exact trace_lasts. Qed.
Print Assumptions C15_tracing_until_the_end.
Theorem C15_tracing_unaffected :
  forall race_safe h body w w' g,
    run race_safe h = Some w -> run race_safe (body ++ h) = Some w' ->
    Forall (quiet g) body -> g_live (w_slots w g) = true ->
    tracing w' g = tracing w g.
Proof. intros rs h body w w' g H H' Q L. exact (run_tracing rs body h w w' g H H' Q L). Qed.
Print Assumptions C15_tracing_unaffected.

Example C15_example :
  exists w', run false (OTraceEnd 0 :: [OPush 0 (Mock 2) None 3; OGo 0 7] ++
                        OTraceBegin 0 true :: demo) = Some w' /\ tracing w' 0 = false /\ tracing w' 7 = true.
Proof. apply ex_run. vm_compute. auto. Qed.

(** Without OutputFile and OnFinish, a Trace in a goroutine that has any
    registration leaves the goroutine tracing (trap.go:129-130, 300-305), and
    the next Trace does not start a trace of its own. *)
Theorem C15_trace_without_sink_refuted :
  exists h w w',
    run false h = Some w /\ tracing w 0 = false /\
    run false (OTraceEnd 0 :: OTraceBegin 0 false :: h) = Some w' /\ tracing w' 0 = true.
Proof.
  exists [OPush 0 (Mock 1) None 20; OInitDone].
  destruct (ex_run (run false [OPush 0 (Mock 1) None 20; OInitDone])
    (fun w => tracing w 0 = false)) as (w & E & H); [vm_compute; reflexivity|].
  destruct (ex_run (run false (OTraceEnd 0 :: OTraceBegin 0 false :: [OPush 0 (Mock 1) None 20; OInitDone]))
    (fun w => tracing w 0 = true)) as (w' & E' & H'); [vm_compute; reflexivity|].
  exists w, w'. auto.
Qed.
Print Assumptions C15_trace_without_sink_refuted.

(** ** C18: a reused goroutine slot carries nothing over: everything the new
    goroutine sees is determined by its creator, whatever the slot held. *)
Theorem C18_slot_reuse_leaks_no_registration :
  forall race_safe h w p s w' r n,
    run race_safe h = Some w -> step race_safe w (OGo p s) = Some (w', r) ->
    map h_beh (local_list w' s n) = (if race_safe then [] else map h_beh (local_list w p n)) /\
    (forall x, In x (local_list w' s n) -> h_id x = None) /\
    g_frames (w_slots w' s) = [] /\
    tracing w' s = (if race_safe then false else tracing w p).
Proof.
  intros rs h w p s w' r n H S. destruct (go_fresh rs h w p s w' r n H S) as (A & B & C). rewrite A. repeat split; auto.
  - destruct rs; [reflexivity|]. rewrite map_map. apply map_ext. intros []; destruct n; reflexivity.
  - intros x I. destruct rs; [easy|]. apply in_map_iff in I as (y & <- & _). destruct n; reflexivity.
Qed.
Print Assumptions C18_slot_reuse_leaks_no_registration.

Example C18_example :
  exists w', run false (OGo 0 5 :: OExit 5 :: OPush 5 (Mock 9) None 1 :: demo) = Some w' /\
    local_list w' 5 (Mock 9) = [] /\ map h_beh (local_list w' 5 (Mock 1)) = [30].
Proof. apply ex_run. vm_compute. auto. Qed.
