(** * Theorems about the dispatch of one call (C07, C10, C16).
    Model: M_Dispatch; specification: S_Dispatch. *)
From Coq Require Import List Arith Bool Lia.
From Verif Require Import M_Dispatch S_Dispatch P_Dispatch.
Import ListNotations.

(** ** C07: pre and post handlers pair up. *)

(** With the loop-variable semantics the runtime module is compiled with
    (go.mod: go 1.14), two recorders are enough to break the pairing: the second
    recorder's post runs twice, once with the data of the first. *)
Definition two_recorders : list hnd :=
  [Hnd 1 None (Some (10, false)) true; Hnd 2 None (Some (20, false)) true].
Theorem C07_pairing_refuted :
  exists recv recs inters,
    r_posts (dispatch Shared recv recs inters) <>
    expected_posts (applicable recv recs ++ applicable recv inters).
Proof. exists None, two_recorders, []. vm_compute. intro H; discriminate H. Qed.
Print Assumptions C07_pairing_refuted.

(** A recorder without post handler after one with a post handler makes the
    call panic (nil function call). *)
Theorem C07_nil_post_panics_refuted :
  exists recv recs,
    (forall h, In h recs -> d_want h = None /\ stops h = false) /\
    In ENilCall (call Shared (CallState 1 false false false recv None recs [])).
Proof.
  exists None, [Hnd 1 None None true; Hnd 2 None (Some (20, false)) false].
  split; [|vm_compute; auto]. simpl. intros h [<-|[<-|[]]]; auto.
Qed.
Print Assumptions C07_nil_post_panics_refuted.

(** An unbound recorder is disturbed even by a recorder bound to another instance. *)
Theorem C07_other_instance_disturbs_refuted :
  exists recv recs,
    length (applicable recv recs) = 1 /\
    r_posts (dispatch Shared recv recs []) <> expected_posts (applicable recv recs).
Proof.
  exists (Some 1), [Hnd 1 None (Some (10, false)) true; Hnd 2 (Some 2) (Some (20, false)) true].
  split; [reflexivity|]. vm_compute. intro H; discriminate H.
Qed.
Print Assumptions C07_other_instance_disturbs_refuted.

(** What holds of the code as compiled: at most one recorder and one interceptor. *)
Theorem C07_pairing_single_partial :
  forall recv recs inters,
    length recs <= 1 -> length inters <= 1 ->
    r_posts (dispatch Shared recv recs inters) =
    expected_posts (applicable recv recs ++ applicable recv inters).
Proof. exact pairing_shared_short. Qed.
Print Assumptions C07_pairing_single_partial.

(** The full statement holds for every handler list under the per-iteration
    semantics (a runtime module declaring go >= 1.22). *)
Theorem C07_pairing_per_iteration_partial :
  forall recv recs inters,
    r_posts (dispatch PerIteration recv recs inters) =
    expected_posts (applicable recv recs ++ applicable recv inters).
Proof. exact pairing_per_iteration. Qed.
Print Assumptions C07_pairing_per_iteration_partial.

Example C07_example :
  r_posts (dispatch PerIteration None two_recorders [Hnd 3 None None true]) =
    [EPost 3 None; EPost 2 (Some 20); EPost 1 (Some 10)] /\
  r_posts (dispatch Shared None two_recorders [Hnd 3 None None true]) =
    [EPost 3 None; EPost 2 (Some 20); EPost 2 (Some 10)] /\
  r_posts (dispatch Shared None [Hnd 1 None (Some (10, false)) true] [Hnd 3 None None true]) =
    [EPost 3 None; EPost 1 (Some 10)].
Proof. vm_compute. auto. Qed.

(** For variable reads the posts do not run in reverse order, whatever the loop
    semantics (var.go:140-145). *)
Theorem C07_variable_post_order_refuted :
  exists recs, forall lv,
    filter (fun e => match e with EPost _ _ => true | _ => false end) (var_read lv false recs []) <>
    expected_posts recs.
Proof.
  exists two_recorders. intros []; vm_compute; intro H; discriminate H.
Qed.
Print Assumptions C07_variable_post_order_refuted.

(** The whole sequence of one call: every pre handler in order up to the one that stops the
    call, the mock, the body, and the posts, in that order (same two cases as above). *)
Theorem C07_call_sequence_partial :
  forall lv s, cs_inspecting s = false ->
    lv = PerIteration \/ length (cs_recs s) <= 1 /\ length (cs_inters s) <= 1 ->
    call lv s = expected_call s.
Proof. exact call_sequence. Qed.
Print Assumptions C07_call_sequence_partial.

Theorem C07_pres_in_order :
  forall lv recv recs inters,
    r_pres (dispatch lv recv recs inters) = expected_pres (applicable recv recs ++ applicable recv inters).
Proof. exact dispatch_pres. Qed.
Print Assumptions C07_pres_in_order.

(** Variable reads: all pres, the mock, all posts with their own data (in registration order). *)
Theorem C07_variable_read_sequence_partial :
  forall lv mock recs inters,
    lv = PerIteration \/ length recs <= 1 /\ length inters <= 1 ->
    var_read lv mock recs inters = expected_var_read mock (recs ++ inters).
Proof.
  intros [] mock recs inters H; [|apply var_read_sequence].
  destruct H as [H|[H1 H2]]; [discriminate|now apply var_read_short].
Qed.
Print Assumptions C07_variable_read_sequence_partial.

(** ** C10: the original runs exactly when nothing replaced it. *)
Theorem C10_body_runs_iff_not_replaced :
  forall lv s, cs_inspecting s = false ->
    (count_body (call lv s) = 0 <-> replaced s) /\
    (count_body (call lv s) = 1 <-> ~ replaced s).
Proof. exact body_iff_not_replaced. Qed.
Print Assumptions C10_body_runs_iff_not_replaced.

Example C10_example :
  let s m recs := CallState 1 false true true (Some 4) m recs [] in
  count_body (call Shared (s (Some (Some 4, true)) [])) = 0 /\
  count_body (call Shared (s (Some (Some 5, true)) [])) = 1 /\
  count_body (call Shared (s None [Hnd 1 None (Some (0, true)) true])) = 0 /\
  count_body (call Shared (s (Some (None, false)) two_recorders)) = 1.
Proof. vm_compute. auto. Qed.

(** ** C16: resolving a function never runs it and restores the state. *)
Theorem C16_probe_runs_nothing :
  forall lv g s, snd (inspect lv g s) = [] /\
    gs_inspecting (fst (inspect lv g s)) = false /\
    gs_depth (fst (inspect lv g s)) = gs_depth g.
Proof. intros lv g s. unfold inspect; simpl. rewrite Nat.sub_0_r. auto. Qed.
Print Assumptions C16_probe_runs_nothing.

Example C16_example :
  inspect Shared (GState false false 0)
    (CallState 0 false true true (Some 4) (Some (None, false)) two_recorders two_recorders)
  = (GState true false 0, []).
Proof. reflexivity. Qed.
