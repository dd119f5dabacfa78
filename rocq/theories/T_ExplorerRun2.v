(** * More on the events of a run (C86): failures are shown; runs of a single test *)
From Coq Require Import Ascii String List Arith Bool Lia Permutation.
From Verif Require Import M_Str M_Explorer M_ExplorerRun T_ExplorerRun.
Import ListNotations.
Open Scope nat_scope. Open Scope list_scope.

Definition end_event : seen := {| v_kind := TestEnd; v_item := None; v_path := []; v_status := []; v_msg := [] |}.
Definition start_event : seen := {| v_kind := TestStart; v_item := None; v_path := []; v_status := []; v_msg := [] |}.
Definition trace_event (p : list bytes) : seen := {| v_kind := UpdateTrace; v_item := None; v_path := p; v_status := []; v_msg := [] |}.

(** ** C86 *)
Lemma last_status_ends p l ends : ~ In p ends -> last_status p (l ++ map (fun q => status_event q #"success" []) ends ++ [end_event]) = last_status p l.
Proof.
  intros N. rewrite app_assoc, last_status_app. cbn [last_status end_event v_kind]. induction ends as [|q ends IH] using rev_ind; [now rewrite app_nil_r|].
  rewrite map_app, app_assoc. cbn [map]. rewrite last_status_app. cbn [last_status status_event v_kind v_path v_status]. destruct (path_dec q p); [exfalso; apply N; apply in_or_app; right; now left|].
  apply IH. intros J. apply N. apply in_or_app. now left.
Qed.
(** If go test failed, the item the run was started for is shown as failed. *)
Theorem C86_failure_shown grow single decode mod_path resolve path asked prefix lines msg before after :
  run_ends grow None single decode mod_path resolve path asked prefix lines (Some msg) before after ->
  In (status_event (root_path path asked prefix) #"fail" msg) (sent after) /\ shown asked (sent after) (root_path path asked prefix) = Some #"fail".
Proof.
  intros H. destruct (C86_no_item_left_running _ _ _ _ _ _ _ _ _ _ _ _ H) as (ends & Es & _ & En & _). destruct H as [extra st0 root st1 t B C Eb R Ea].
  destruct (begin_inv _ _ _ _ _ _ B) as (I0 & V0 & R0). destruct (consume_inv asked _ _ _ (builder_good grow _ _ _ _ _ _) _ _ I0 V0 C) as [I1 F1].
  assert (Sb : sent before = sent st1 ++ [status_event (root_path path asked prefix) #"fail" msg]).
  { rewrite Eb. unfold failed. rewrite sent_send. unfold view. cbn. rewrite (frame_read _ _ _ F1 V0), R0. reflexivity. }
  assert (X : last_status (root_path path asked prefix) (sent before) = Some #"fail").
  { rewrite Sb, last_status_app. cbn [last_status status_event v_kind v_path v_status]. destruct (path_dec _ _); [reflexivity|congruence]. }
  split; [rewrite Es, Sb; apply in_or_app; left; apply in_or_app; right; now left|]. unfold shown. rewrite Es. rewrite last_status_ends; [now rewrite X|].
  intros J. apply En in J as (s & Sh & U). unfold shown in Sh. rewrite X in Sh. injection Sh as <-. destruct U as [U|[U|U]]; discriminate U.
Qed.
(** *** A single test *)
Lemma traverse_along grow f p : forall t node q st s, along p t -> pm_get t p <> None -> valid (r_heap st) q -> pm_get (r_pm st) (node ++ p) = Some s ->
  exists h r, traverse grow f t node q st = f (with_heap st h) r s /\ valid h r /\ read h r = read (r_heap st) q ++ p /\
    forall z, valid (r_heap st) z -> s_arr z <> s_arr q -> valid h z /\ read h z = read (r_heap st) z.
Proof.
  induction p as [|k p IH]; intros t node q st s A G V Pm; cbn in A.
  - destruct A as (r & ->). cbn in G. destruct r as [rs|]; [|congruence]. exists (r_heap st), q. cbn [traverse]. rewrite app_nil_r in Pm. rewrite Pm. destruct st. cbn. rewrite app_nil_r. auto.
  - destruct A as (v & -> & A). cbn [traverse]. destruct (append grow (r_heap st) q [k]) as [h q'] eqn:Ap. destruct (append_spec grow _ _ _ _ _ Ap V) as (V' & R' & L' & Le & Oth & Lens & Ar & _).
    assert (Gv : pm_get v p <> None). { cbn [pm_get pm_sub find_key] in G. now rewrite eqs_refl in G. }
    assert (Pm' : pm_get (r_pm (with_heap st h)) ((node ++ [k]) ++ p) = Some s) by (rewrite <- app_assoc; exact Pm).
    destruct (IH v (node ++ [k]) q' (with_heap st h) s A Gv V' Pm') as (h2 & r & Tr & Vr & Rr & Z). exists h2, r. split; [exact Tr|]. split; auto. cbn [with_heap r_heap] in Rr, Z. split; [rewrite Rr, R', <- app_assoc; reflexivity|].
    intros z Vz Nz. assert (Vz' : valid h z). { destruct Vz as [Vz1 Vz2]. split; [lia|]. unfold arr in *. now rewrite Lens. }
    destruct (Z z Vz') as [Y1 Y2]. { destruct Ar as [->|[Ar _]]; [exact Nz|]. destruct Vz. lia. }
    split; auto. rewrite Y2. eapply other_read; eauto.
Qed.
Lemma along_get p : forall s c, pm_get (pm_set c p s) p = Some s.
Proof. induction p as [|k p IH]; intros s c; cbn; [reflexivity|]. rewrite find_set, eqs_refl. apply IH. Qed.
Lemma reordered_along p : forall c t, along p c -> pm_get c p <> None -> reordered c t -> along p t /\ pm_get t p <> None.
Proof.
  induction p as [|k p IH]; intros c t A G R; cbn in A.
  - destruct A as (r & ->). inversion R as [r' m m1 m2 F P]; subst. inversion F; subst. apply Permutation_nil in P. subst. cbn in *. eauto.
  - destruct A as (v & -> & A). inversion R as [r' m m1 m2 F P]; subst. inversion F as [|a b ? ? [X Rv] F1]; subst. inversion F1; subst. destruct b as [k' v']. cbn in X. subst k'. apply Permutation_length_1_inv in P. subst.
    cbn [pm_get pm_sub find_key] in G. rewrite eqs_refl in G. destruct (IH v v' A G Rv) as [A2 G2]. split; [cbn; eauto|]. cbn [pm_get pm_sub find_key]. now rewrite eqs_refl.
Qed.
Lemma plain_consume grow decode prefix mod_path resolve root lines : forall st st', consume (builder grow true decode prefix mod_path resolve root) root st lines = CEof st' ->
  r_heap st' = r_heap st /\ r_pm st' = r_pm st /\ sent st' = sent st ++ map (fun l => status_event (read (r_heap st) root) [] l) lines.
Proof.
  induction lines as [|l lines IH]; intros st st' C; cbn [consume] in C.
  - injection C as <-. rewrite app_nil_r. auto.
  - unfold builder at 1 in C. cbn [plain_build] in C. apply IH in C as (H & P & Sx). cbn in H, P. split; auto. split; auto. rewrite Sx. unfold send_all. cbn [fold_left]. rewrite sent_send. cbn [with_heap r_heap send map]. rewrite <- app_assoc. reflexivity.
Qed.
Lemma set_key_twice m k v w : set_key (set_key m k v) k w = set_key m k w.
Proof. induction m as [|[k' v'] m IH]; cbn; [now rewrite eqs_refl|]. destruct (eqs k' k) eqn:Q; cbn; rewrite Q; [reflexivity|]. now rewrite IH. Qed.
Lemma pm_set_twice p : forall c v w, pm_set (pm_set c p v) p w = pm_set c p w.
Proof. induction p as [|k p IH]; intros c v w; cbn; [reflexivity|]. rewrite find_set, eqs_refl, set_key_twice. f_equal. f_equal. apply IH. Qed.
Lemma trim_self p : trim_prefix p p = Some [].
Proof. induction p as [|k p IH]; cbn; [reflexivity|]. now rewrite eqs_refl. Qed.
(** A single test: its output goes to it line by line; then it has failed if go test says so, and passed if not; then the traces
    if there are any; then the end. *)
Theorem C86_single_test grow trace decode mod_path resolve path p prefix lines err before after :
  path = [] \/ path = p -> run_ends grow trace true decode mod_path resolve path [p] prefix lines err before after ->
  sent after = start_event :: map (fun l => status_event p [] l) lines ++
    [match err with Some msg => status_event p #"fail" msg | None => status_event p #"success" [] end] ++
    match trace with Some recs => if recs [] then [trace_event p] else [] | None => [] end ++ [end_event].
Proof.
  intros Hp [extra st0 root st1 t B C Eb Rt Ea]. destruct (begin_inv _ _ _ _ _ _ B) as (I0 & V0 & R0). assert (Rp : root_path path [p] prefix = p). { unfold root_path. destruct Hp as [->| ->]; [reflexivity|]. now destruct p. }
  rewrite Rp in R0. destruct (plain_consume _ _ _ _ _ _ _ _ _ C) as (H1 & P1 & S1). rewrite R0 in S1.
  assert (Root : s_arr root <> 0 /\ sent st0 = [start_event] /\ r_pm st0 = pm_set pm0 p status_running /\ heap_ok (r_heap st0)).
  { split; [|split; [|split; [|apply I0]]]; unfold begin_run in B; destruct (alloc _ _ _) as [h r] eqn:Al in B; injection B as <- <-.
    - destruct (alloc_spec _ _ _ _ _ Al) as (_ & _ & _ & Ar & _). rewrite Ar. cbn. lia.
    - reflexivity.
    - reflexivity. }
  destruct Root as (Rn & S0 & P0 & HO).
  set (bf := failed root err st1) in *.
  assert (Hb : r_heap before = r_heap st0). { rewrite Eb. unfold bf, failed. destruct err; cbn; exact H1. }
  assert (Pb : r_pm before = pm_set (r_pm st0) p (match err with Some _ => #"fail" | None => #"running" end)).
  { rewrite Eb. unfold bf, failed. destruct err; cbn; rewrite ?H1, ?P1, ?R0; [reflexivity|]. rewrite P0. symmetry. apply pm_set_twice. }
  assert (Sb : sent before = start_event :: map (fun l => status_event p [] l) lines ++ match err with Some msg => [status_event p #"fail" msg] | None => [] end).
  { rewrite Eb. unfold bf, failed. destruct err as [msg|]; [|rewrite S1, S0, app_nil_r; reflexivity]. rewrite sent_send, S1, S0. unfold view. cbn [e_kind e_item e_path e_status e_msg]. rewrite H1, R0. reflexivity. }
  assert (Al : along p (r_pm before)). { rewrite Pb, P0. apply along_reset, along_set. }
  assert (Gt : pm_get (r_pm before) p <> None) by (rewrite Pb, along_get; discriminate).
  destruct (reordered_along _ _ _ Al Gt Rt) as [At Gt2]. destruct (nil_valid _ HO) as [Vn Rnil].
  assert (Pm : pm_get (r_pm before) ([] ++ p) = Some (match err with Some _ => #"fail" | None => #"running" end)) by (cbn [app]; rewrite Pb; apply along_get).
  rewrite <- Hb in Vn, Rnil.
  destruct (traverse_along grow (at_end grow trace root) p t [] nil_slice before _ At Gt2 Vn Pm) as (h & r & Tr & Vr & Rr & Z).
  destruct (Z root) as [Vz Rz]; [now rewrite Hb|exact Rn|]. rewrite Hb, R0 in Rz. rewrite Rnil in Rr. cbn [app] in Rr.
  rewrite Ea. unfold ending. rewrite sent_send. unfold view at 1. cbn [e_kind e_item e_path e_status e_msg].
  assert (X : forall g, read g nil_slice = []) by reflexivity. rewrite X. fold end_event. change {| v_kind := TestEnd; v_item := None; v_path := []; v_status := []; v_msg := [] |} with end_event.
  rewrite Tr. unfold at_end. destruct err as [msg|].
  - change (pending #"fail") with false. cbv iota zeta. cbn [with_heap r_heap].
    assert (Sw : sent (with_heap before h) = sent before) by reflexivity.
    destruct trace as [recs|]; [rewrite Rr, Rz, trim_self; destruct (recs [])|].
    + rewrite sent_send, Sw, Sb. unfold view. cbn [e_kind e_item e_path e_status e_msg with_heap r_heap]. rewrite Rr. cbn [app]. rewrite <- !app_assoc. reflexivity.
    + rewrite Sw, Sb. cbn [app]. rewrite <- !app_assoc. reflexivity.
    + rewrite Sw, Sb. cbn [app]. rewrite <- !app_assoc. reflexivity.
  - change (pending #"running") with true. cbv iota zeta. cbn [with_heap r_heap].
    destruct (alloc h [] 0) as [h1 s1] eqn:A1. destruct (alloc_spec _ _ _ _ _ A1) as (F1 & V1 & R1 & Ar1 & _). destruct (append grow h1 s1 (read h1 r)) as [h2 q] eqn:A2.
    destruct (append_spec grow _ _ _ _ _ A2 V1) as (V2 & R2 & L2 & Le2 & Oth & Lens & Ar2 & _).
    assert (Keep : forall z, valid h z -> read h2 z = read h z). { intros z Vy. transitivity (read h1 z); [|eapply frame_read; eauto]. eapply other_read; [exact Oth|eapply frame_valid; eauto|]. rewrite Ar1. destruct Vy. lia. }
    set (st2 := send (with_heap (with_heap before h) h2) _).
    assert (S2 : sent st2 = sent before ++ [status_event p #"success" []]). { unfold st2. rewrite sent_send. cbn [with_heap r_heap]. unfold view. cbn [e_kind e_item e_path e_status e_msg]. rewrite R2, R1, (frame_read _ _ _ F1 Vr), Rr. reflexivity. }
    assert (H2 : r_heap st2 = h2) by reflexivity.
    destruct trace as [recs|]; [rewrite H2, (Keep r Vr), (Keep root Vz), Rr, Rz, trim_self; destruct (recs [])|].
    + rewrite sent_send, S2, Sb, H2. unfold view. cbn [e_kind e_item e_path e_status e_msg]. rewrite (Keep r Vr), Rr. cbn [app]. rewrite <- !app_assoc. reflexivity.
    + rewrite S2, Sb. cbn [app]. rewrite <- !app_assoc. reflexivity.
    + rewrite S2, Sb. cbn [app]. rewrite <- !app_assoc. reflexivity.
Qed.
