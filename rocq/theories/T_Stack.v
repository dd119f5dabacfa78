(** * Theorems about trace stacks under concurrency (C12, C13).
    Model: M_Stack; specification: S_Stack. *)
From Coq Require Import List Arith Bool ZArith Lia.
From Verif Require Import M_Stack S_Stack P_Stack P_Stack2 P_Stack3.
Import ListNotations.

(** ** C12: trees stay well-formed under every interleaving. *)

(** Missing compared to the full property: executions in which a traced call's
    mock panics (then [post] is never deferred, see below), and "go" marker
    entries, which are outside the uniqueness of IDs (see below). *)
Theorem C12_well_formed_partial :
  forall acts w s, run acts init_world = Some w -> s < length (stacks (w_mem w)) ->
    well_formed (w_mem w) s.
Proof. exact reachable_well_formed. Qed.
Print Assumptions C12_well_formed_partial.

(** Non-trivial witness: two goroutines, nested calls, a fork inside a call, an
    export in the middle. *)
Definition demo : list action :=
  [APush 0 1 7; APush 0 2 8; AFork 0 true; APush 1 5 9; AFinish 0 false 3 false;
   ASnapshot 0; APush 0 3 0; APush 1 6 0; AFinish 1 false 4 true].
Definition demo_world : world := match run demo init_world with Some w => w | None => init_world end.
Example C12_example :
  run demo init_world = Some demo_world /\ length (stacks (w_mem demo_world)) = 2 /\
  s_roots (get_stack (w_mem demo_world) 0) = [0] /\
  e_children (get (heap (w_mem demo_world)) 0) = [1; 7] /\
  s_top (get_stack (w_mem demo_world) 0) = Some 7 /\ s_depth (get_stack (w_mem demo_world) 0) = 2%Z /\
  map (fun p => e_id (get (heap (w_mem demo_world)) p)) [0; 1; 7] = [1; 3; 5].
Proof. vm_compute. repeat split; auto. Qed.

(** A mock that panics under tracing leaves its entry unfinished although it is
    no longer on the path to Top. *)
Theorem C12_panicking_mock_refuted :
  exists acts1 w1 w2, run acts1 init_world = Some w1 /\
    run [AFinish 0 false 0 true] (abandon w1 0) = Some w2 /\ ~ well_formed (w_mem w2) 0.
Proof.
  eexists [APush 0 1 0; APush 0 2 0], _, _. split; [vm_compute; reflexivity|]. split; [vm_compute; reflexivity|].
  intros W. destruct (wf_open_path _ _ W) as (path & P & T & D & _ & F).
  assert (E : path = []).
  { destruct path as [|p path]; auto. exfalso. vm_compute in T. clear -T. revert p T.
    induction path as [|q path IH]; intros p T; [discriminate|]. apply (IH q). exact T. }
  subst path. vm_compute in D. discriminate D.
Qed.
Print Assumptions C12_panicking_mock_refuted.

(** All "go" markers carry the same ID 0. *)
Theorem C12_go_entries_share_id_refuted :
  exists acts w p q, run acts init_world = Some w /\
    entry_of (w_mem w) 0 p /\ entry_of (w_mem w) 0 q /\ p <> q /\
    e_id (get (heap (w_mem w)) p) = e_id (get (heap (w_mem w)) q).
Proof.
  eexists [APush 0 1 0; AFork 0 true; AFork 0 true], _, 1, 2. split; [vm_compute; reflexivity|].
  assert (R : reach [Entry 1 0 1 0 false None None [1; 2]; Entry 0 0 0 0 false None (Some 1) []; Entry 0 0 0 0 false None (Some 2) []] [0] 0)
    by (apply reach_root; now left).
  split; [|split; [|split; [discriminate|reflexivity]]].
  - apply reach_child with 0; [exact R|]. now left.
  - apply reach_child with 0; [exact R|]. right; now left.
Qed.
Print Assumptions C12_go_entries_share_id_refuted.

(** ** C13: an export taken at any time is consistent. *)

(** Whatever the other goroutines do between any two memory accesses of the
    export ([ev] is arbitrary), the result shows each stack as it was at one
    instant of the export, "(running)" exactly for the calls unfinished then (go
    entries: goroutines not ended then), and no entry half-built. *)
Theorem C13_export_consistent :
  forall fuel s acts0 w ev w' ev' xs,
    run acts0 init_world = Some w -> s < length (stacks (w_mem w)) ->
    export fuel s w ev = Some (w', ev', xs) ->
    exported (during w w') s xs /\ Forall complete xs.
Proof. exact export_correct. Qed.
Print Assumptions C13_export_consistent.

(** Whatever happens after a snapshot, the copy denotes exactly the trees the
    stack had when it was taken. *)
Theorem C13_snapshot_immutable :
  forall acts0 w s m' r acts w2,
    run acts0 init_world = Some w -> s < length (stacks (w_mem w)) ->
    snapshot (w_mem w) s = (m', r) -> run acts (World m' (w_gs w)) = Some w2 ->
    forall vs, Forall2 (repr (heap (w_mem w2))) (snd r) vs <-> trees_of (w_mem w) s vs.
Proof. exact snapshot_immutable. Qed.
Print Assumptions C13_snapshot_immutable.

(** Non-trivial: goroutine 0 and 1 run while stack 0 is exported; the child call
    3 of goroutine 0 and the call 6 of goroutine 1 are still running. *)
Example C13_example :
  option_map snd (export 50 0 demo_world [[AFinish 0 false 1 false]; [AFinish 0 true 2 false]; []; []; [APush 1 8 8]])
  = Some [X (Some 1) true 7 None
            [X (Some 2) false 8 (Some (3, false)) [X None true 0 None [X (Some 5) true 9 None [X (Some 6) false 0 (Some (4, true)) []; X (Some 8) true 8 None []]]];
             X (Some 3) false 0 (Some (1, false)) []]].
Proof. vm_compute. reflexivity. Qed.
