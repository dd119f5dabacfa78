(** Proofs about the registry model, part 2: cancellation, isolation,
    inheritance, instance binding, tracing. *)
From Coq Require Import List Arith Bool Lia.
From Verif Require Import M_Registry S_Registry P_Registry.
Import ListNotations.

Lemma step_run rs h w o w' r :
  run rs h = Some w -> step rs w o = Some (w', r) -> run rs (o :: h) = Some w'.
Proof. intros H S. simpl. now rewrite H, S. Qed.

Lemma run_step rs h w o w' :
  run rs h = Some w -> run rs (o :: h) = Some w' -> exists r, step rs w o = Some (w', r).
Proof.
  simpl. intros -> H. destruct (step rs w o) as [[w2 r]|]; [|discriminate].
  injection H as <-. eauto.
Qed.

(** *** Effect of one step on all lists *)
Definition local_after (rs : bool) (h : list op) (w : world) (o : op) (g : nat) (n : name) : list holder :=
  match o with
  | OInitDone | OTraceBegin _ _ => local_list w g n
  | OPush p m want beh =>
      if w_init w && (p =? g) && name_eqb m n
      then local_list w g n ++ [Holder (Some (pushes h)) (bound n want) beh] else local_list w g n
  | OCancel c => without c (local_list w g n)
  | OGo p s => if s =? g then (if rs then [] else map (clone_holder n) (local_list w p n))
               else local_list w g n
  | OExit p => if p =? g then [] else local_list w g n
  | OTraceEnd p =>
      match g_frames (w_slots w p) with
      | true :: _ => if p =? g then [] else local_list w g n
      | _ => local_list w g n
      end
  end.

Lemma step_local rs h w o w' r g n :
  Inv h w -> step rs w o = Some (w', r) -> local_list w' g n = local_after rs h w o g n.
Proof.
  intros I Es. destruct o; simpl in Es |- *.
  - destruct (w_init w); [discriminate|]. injection Es as <- <-. reflexivity.
  - destruct (g_live (w_slots w g0)); [|discriminate]. injection Es as <- <-.
    now apply local_push.
  - destruct (nth_error (w_cancels w) c) as [cl|] eqn:Ec; [|discriminate].
    injection Es as H. replace w' with (fst (cancel w c cl)) by now rewrite H.
    apply (local_cancel _ _ _ _ _ _ I Ec).
  - destruct (g_live (w_slots w g0)) eqn:E1; [|discriminate].
    destruct (g_live (w_slots w s)) eqn:E2; [discriminate|].
    simpl in Es. injection Es as <- <-.
    apply (go_local _ _ _ _ _ _ _ I). congruence.
  - destruct (g_live (w_slots w g0)); [|discriminate]. injection Es as <- <-.
    destruct (g0 =? g) eqn:Eg.
    + apply Nat.eqb_eq in Eg; subst. unfold local_list. simpl. now rewrite upd_same.
    + apply Nat.eqb_neq in Eg. now rewrite local_slot_other.
  - destruct (_ && _); [|discriminate]. injection Es as <- <-.
    apply (trace_begin_local _ _ _ _ _ _ I).
  - destruct (g_live (w_slots w g0)); [|discriminate].
    destruct (g_frames (w_slots w g0)) as [|b rest]; [discriminate|]. injection Es as <- <-.
    rewrite trace_end_local. destruct b; auto.
Qed.

(** *** C02 *)
Lemma cancel_outcome rs h w c r :
  run rs h = Some w -> outcome_of rs h (OCancel c) = Some r ->
  c < pushes h /\
  (r = Ok <-> ~ In (OCancel c) h /\ (init_done h = true -> pre_init_pushes h <= c)).
Proof.
  intros H. pose proof (run_inv _ _ _ H) as I.
  unfold outcome_of. rewrite H. simpl.
  destruct (nth_error (w_cancels w) c) as [cl|] eqn:E; [|discriminate].
  intro Hr. split.
  { rewrite <- (i_ncl _ _ I). apply nth_error_Some. congruence. }
  rewrite (cancel_effect _ _ _ _ I E) in Hr. destruct cl as [[|sp] n]; simpl in Hr.
  - destruct (i_clg _ _ I _ _ E) as [A B]. destruct (w_init w) eqn:Ei.
    + injection Hr as <-. rewrite <- (i_init _ _ I), Ei. split; [discriminate|].
      intros [_ X]. specialize (X eq_refl). lia.
    + specialize (B eq_refl). rewrite <- (i_init _ _ I), Ei.
      destruct (existsb (is_id c) (w_global w n)) eqn:Ex; injection Hr as <-.
      * apply existsb_ids in Ex. split; auto. intros _. split; [tauto|discriminate].
      * split; [discriminate|]. intros [X _]. apply B, existsb_ids in X. congruence.
  - destruct (i_cl _ _ I _ _ _ E) as (A & Hi & C & D).
    destruct (existsb (is_id c) (s_table (w_heap w sp) n)) eqn:Ex; injection Hr as <-.
    + apply existsb_ids in Ex. split; auto. intros _. split; [tauto|auto].
    + split; [discriminate|]. intros [X _]. apply D, existsb_ids in X. congruence.
Qed.

Lemma cancel_defined rs h w c :
  run rs h = Some w -> c < pushes h -> exists r, outcome_of rs h (OCancel c) = Some r.
Proof.
  intros H L. pose proof (run_inv _ _ _ H) as I. unfold outcome_of. rewrite H. simpl.
  rewrite <- (i_ncl _ _ I) in L. apply nth_error_Some in L.
  destruct (nth_error (w_cancels w) c); [|congruence]. destruct (cancel w c c0). eauto.
Qed.

Lemma nodup_ids_local h w g n : Inv h w -> NoDup (ids (local_list w g n)).
Proof.
  intro I. unfold local_list. destruct (g_stack (w_slots w g)) eqn:E; [|constructor].
  apply I. now apply (i_slot_lt _ _ I) in E.
Qed.

Lemma without_split c l : NoDup (ids l) ->
  (~ In c (ids l) /\ without c l = l) \/
  (exists a x b, l = a ++ x :: b /\ h_id x = Some c /\ without c l = a ++ b).
Proof.
  intro ND. destruct (in_dec Nat.eq_dec c (ids l)) as [H|H].
  - right. apply in_ids in H as (x & Hx & Hc). apply in_split in Hx as (a & b & ->).
    exists a, x, b. repeat split; auto. rewrite without_app. simpl. rewrite Hc, Nat.eqb_refl. simpl.
    rewrite ids_app in ND. simpl in ND. rewrite Hc in ND. simpl in ND.
    apply NoDup_remove_2 in ND. rewrite in_app_iff in ND.
    rewrite !without_notin; tauto.
  - left. split; auto. now apply without_notin.
Qed.

Lemma cancel_exact rs h w c w' :
  run rs h = Some w -> run rs (OCancel c :: h) = Some w' ->
  (forall g n, local_list w' g n = local_list w g n \/
     exists a x b, local_list w g n = a ++ x :: b /\ h_id x = Some c /\
                   local_list w' g n = a ++ b) /\
  (forall n, w_global w' n = w_global w n \/
     exists a x b, w_global w n = a ++ x :: b /\ h_id x = Some c /\
                   w_global w' n = a ++ b) /\
  (forall g n x, In x (local_list w' g n) -> h_id x <> Some c).
Proof.
  intros H H'. pose proof (run_inv _ _ _ H) as I.
  destruct (run_step _ _ _ _ _ H H') as (r & S).
  assert (L : forall g n, local_list w' g n = without c (local_list w g n)).
  { intros g n. apply (step_local _ _ _ _ _ _ g n I S). }
  repeat split.
  - intros g n. rewrite L. destruct (without_split c (local_list w g n)) as [[_ E]|E]; auto.
    eapply nodup_ids_local; eauto.
  - intro n. simpl in S. destruct (nth_error (w_cancels w) c) as [cl|] eqn:Ec; [|discriminate].
    injection S as S. replace w' with (fst (cancel w c cl)) by now rewrite S.
    rewrite (global_cancel _ _ _ _ _ I Ec). destruct (w_init w); auto.
    destruct (without_split c (w_global w n)) as [[_ E]|E]; auto. apply I.
  - intros g n x Hx. rewrite L in Hx. apply in_without in Hx. tauto.
Qed.

Lemma cancel_panic rs h w c w' :
  run rs h = Some w -> step rs w (OCancel c) = Some (w', Panicked) -> w' = w.
Proof.
  intros H S. pose proof (run_inv _ _ _ H) as I. simpl in S.
  destruct (nth_error (w_cancels w) c) as [cl|] eqn:Ec; [|discriminate].
  rewrite (cancel_effect _ _ _ _ I Ec) in S. injection S as S.
  destruct cl as [[|sp] n]; simpl in S.
  - destruct (w_init w); [congruence|]. destruct (existsb _ _); congruence.
  - destruct (existsb _ _); congruence.
Qed.

(** If cancelling succeeded, the registration was indeed in force and is gone. *)
Lemma cancel_ok_global rs h w c w' :
  run rs h = Some w -> step rs w (OCancel c) = Some (w', Ok) -> init_done h = false ->
  exists n a x b, w_global w n = a ++ x :: b /\ h_id x = Some c /\ w_global w' n = a ++ b.
Proof.
  intros H S E0. pose proof (run_inv _ _ _ H) as I. simpl in S.
  destruct (nth_error (w_cancels w) c) as [cl|] eqn:Ec; [|discriminate].
  pose proof (global_cancel _ _ _ _ (c_name cl) I Ec) as G.
  rewrite (cancel_effect _ _ _ _ I Ec) in G, S. injection S as S.
  rewrite (i_init _ _ I), E0 in *.
  destruct cl as [[|sp] n]; simpl in *.
  - destruct (existsb (is_id c) (w_global w n)) eqn:Ex; [|discriminate].
    apply existsb_ids in Ex. injection S as <-.
    destruct (without_split c (w_global w n)) as [[X _]|(a & x & b & A & B & C)].
    + apply I.
    + contradiction.
    + exists n, a, x, b. repeat split; auto. simpl. now rewrite tset_same.
  - destruct (i_cl _ _ I _ _ _ Ec) as (_ & Hi & _). rewrite (i_init _ _ I) in Hi. congruence.
Qed.

(** *** C03 *)
Lemma registrant_lt h c g : registrant h c = Some g -> c < pushes h.
Proof.
  induction h as [|o h IH]; simpl; [discriminate|]. destruct o; auto.
  destruct (c =? pushes h) eqn:E; intro X.
  - apply Nat.eqb_eq in E. lia.
  - apply IH in X. lia.
Qed.

Lemma local_registrant rs h w : run rs h = Some w ->
  forall g n x c, In x (local_list w g n) -> h_id x = Some c -> registrant h c = Some g.
Proof.
  revert w. induction h as [|o h IH]; intros w H g n x c Hx Hc.
  - injection H as <-. unfold local_list in Hx. simpl in Hx. unfold upd in Hx.
    destruct (0 =? g); simpl in Hx; tauto.
  - simpl in H. destruct (run rs h) as [w1|] eqn:E; [|discriminate].
    destruct (step rs w1 o) as [[w2 r]|] eqn:Es; [|discriminate]. injection H as <-.
    pose proof (run_inv _ _ _ E) as I. specialize (IH w1 eq_refl).
    rewrite (step_local _ _ _ _ _ _ g n I Es) in Hx.
    destruct o; simpl in Hx |- *; eauto.
    + assert (K : In x (local_list w1 g n) -> (if c =? pushes h then Some g0 else registrant h c) = Some g).
      { intro Hx'. pose proof (IH _ _ _ _ Hx' Hc) as R. pose proof (registrant_lt _ _ _ R).
        destruct (c =? pushes h) eqn:E2; auto. apply Nat.eqb_eq in E2; lia. }
      destruct (w_init w1 && (g0 =? g) && name_eqb n0 n) eqn:E1; auto.
      apply in_app_or in Hx as [Hx|[<-|[]]]; auto.
      simpl in Hc. injection Hc as <-. rewrite Nat.eqb_refl.
      apply andb_prop in E1 as [E1 _]. apply andb_prop in E1 as [_ E1].
      apply Nat.eqb_eq in E1. now subst.
    + apply in_without in Hx as [Hx _]. eauto.
    + destruct (s =? g); eauto. destruct rs; [simpl in Hx; tauto|].
      apply in_map_iff in Hx as (y & <- & _). destruct n; simpl in Hc; discriminate.
    + destruct (g0 =? g); eauto. simpl in Hx; tauto.
    + destruct (g_frames (w_slots w1 g0)) as [|[] ?]; eauto.
      destruct (g0 =? g); eauto. simpl in Hx; tauto.
Qed.

Lemma isolation rs h w o w' r g n :
  run rs h = Some w -> step rs w o = Some (w', r) ->
  local_list w' g n <> local_list w g n -> concerns h o g.
Proof.
  intros H S D. pose proof (run_inv _ _ _ H) as I.
  rewrite (step_local _ _ _ _ _ _ g n I S) in D.
  destruct o; simpl in *; try congruence.
  - destruct (g0 =? g) eqn:E; [apply Nat.eqb_eq in E; auto|].
    rewrite andb_false_r in D. simpl in D. congruence.
  - destruct (in_dec Nat.eq_dec c (ids (local_list w g n))) as [X|X].
    + apply in_ids in X as (x & Hx & Hc). eapply local_registrant; eauto.
    + rewrite without_notin in D; congruence.
  - destruct (s =? g) eqn:E; [apply Nat.eqb_eq in E; auto|congruence].
  - destruct (g0 =? g) eqn:E; [apply Nat.eqb_eq in E; auto|congruence].
  - destruct (g_frames (w_slots w g0)) as [|[] ?]; try congruence.
    destruct (g0 =? g) eqn:E; [apply Nat.eqb_eq in E; auto|congruence].
Qed.

Lemma global_after_init rs h w o w' r n :
  run rs h = Some w -> step rs w o = Some (w', r) -> init_done h = true ->
  w_global w' n = w_global w n.
Proof.
  intros H S E. pose proof (run_inv _ _ _ H) as I. rewrite (run_global _ _ _ H).
  rewrite (step_global _ _ _ _ _ _ I S) by (eapply run_global; eauto).
  destruct o; simpl; auto; now rewrite E.
Qed.

(** *** C04 *)
Lemma local_want_none rs h w : run rs h = Some w ->
  forall g n x, In x (local_list w g n) -> (forall v, bound n v = None) -> h_want x = None.
Proof.
  revert w. induction h as [|o h IH]; intros w H g n x Hx B.
  - injection H as <-. unfold local_list in Hx. simpl in Hx. unfold upd in Hx.
    destruct (0 =? g); simpl in Hx; tauto.
  - simpl in H. destruct (run rs h) as [w1|] eqn:E; [|discriminate].
    destruct (step rs w1 o) as [[w2 r]|] eqn:Es; [|discriminate]. injection H as <-.
    pose proof (run_inv _ _ _ E) as I. specialize (IH w1 eq_refl).
    rewrite (step_local _ _ _ _ _ _ g n I Es) in Hx.
    destruct o; simpl in Hx |- *; eauto.
    + destruct (w_init w1 && (g0 =? g) && name_eqb n0 n) eqn:E1; eauto.
      apply in_app_or in Hx as [Hx|[<-|[]]]; [eauto|]. apply B.
    + apply in_without in Hx as [Hx _]. eauto.
    + destruct (s =? g); eauto. destruct rs; [simpl in Hx; tauto|].
      apply in_map_iff in Hx as (y & <- & Hy). destruct n; simpl; auto.
      exact (IH _ _ _ Hy B).
    + destruct (g0 =? g); eauto. simpl in Hx; tauto.
    + destruct (g_frames (w_slots w1 g0)) as [|[] ?]; eauto.
      destruct (g0 =? g); eauto. simpl in Hx; tauto.
Qed.

Lemma inherit_exact h w p s w' r n :
  run false h = Some w -> step false w (OGo p s) = Some (w', r) -> is_rec_name n = false ->
  map effect_of (local_list w' s n) = map effect_of (local_list w p n).
Proof.
  intros H S R. pose proof (run_inv _ _ _ H) as I.
  rewrite (step_local _ _ _ _ _ _ s n I S). simpl. rewrite Nat.eqb_refl.
  rewrite map_map. apply map_ext_in. intros x Hx. unfold effect_of.
  destruct n; simpl in *; try discriminate; f_equal; try reflexivity;
    symmetry; apply (local_want_none _ _ _ H _ _ _ Hx); reflexivity.
Qed.

Lemma inherit_handlers h w p s w' r n :
  run false h = Some w -> step false w (OGo p s) = Some (w', r) ->
  map h_beh (local_list w' s n) = map h_beh (local_list w p n).
Proof.
  intros H S. pose proof (run_inv _ _ _ H) as I.
  rewrite (step_local _ _ _ _ _ _ s n I S). simpl. rewrite Nat.eqb_refl.
  rewrite map_map. apply map_ext. intro x. destruct n; reflexivity.
Qed.

(** *** C05 *)
Lemma local_provenance rs h w : run rs h = Some w ->
  forall g n x, In x (local_list w g n) ->
  exists p want, In (OPush p n want (h_beh x)) h /\
    (is_rec_name n = false \/ (exists c, h_id x = Some c) -> h_want x = bound n want).
Proof.
  revert w. induction h as [|o h IH]; intros w H g n x Hx.
  - injection H as <-. unfold local_list in Hx. simpl in Hx. unfold upd in Hx.
    destruct (0 =? g); simpl in Hx; tauto.
  - simpl in H. destruct (run rs h) as [w1|] eqn:E; [|discriminate].
    destruct (step rs w1 o) as [[w2 r]|] eqn:Es; [|discriminate]. injection H as <-.
    pose proof (run_inv _ _ _ E) as I. specialize (IH w1 eq_refl).
    assert (K : forall g', In x (local_list w1 g' n) ->
      exists p want, In (OPush p n want (h_beh x)) (o :: h) /\
        (is_rec_name n = false \/ (exists c, h_id x = Some c) -> h_want x = bound n want)).
    { intros g' Hx'. destruct (IH _ _ _ Hx') as (p & v & A & B). exists p, v. simpl; auto. }
    rewrite (step_local _ _ _ _ _ _ g n I Es) in Hx.
    destruct o; simpl in Hx; eauto.
    + destruct (w_init w1 && (g0 =? g) && name_eqb n0 n) eqn:E1; eauto.
      apply in_app_or in Hx as [Hx|[<-|[]]]; [eauto|].
      apply andb_prop in E1 as [_ E1]. apply name_eqb_eq in E1; subst n0.
      exists g0, want. simpl. auto.
    + apply in_without in Hx as [Hx _]. eauto.
    + destruct (s =? g); eauto. destruct rs; [simpl in Hx; tauto|].
      apply in_map_iff in Hx as (y & <- & Hy).
      destruct (IH _ _ _ Hy) as (p & v & A & B). exists p, v.
      replace (h_beh (clone_holder n y)) with (h_beh y) by (destruct n; reflexivity).
      split; [simpl; auto|]. intros [R|[c R]]; [|destruct n; discriminate].
      rewrite <- B by auto. destruct n; simpl in *; try discriminate; auto;
        symmetry; apply (local_want_none _ _ _ E _ _ _ Hy); reflexivity.
    + destruct (g0 =? g); eauto. simpl in Hx; tauto.
    + destruct (g_frames (w_slots w1 g0)) as [|[] ?]; eauto.
      destruct (g0 =? g); eauto. simpl in Hx; tauto.
Qed.

Lemma global_provenance h n x : In x (spec_global h n) ->
  exists p want, In (OPush p n want (h_beh x)) h /\ h_want x = bound n want.
Proof.
  induction h as [|o h IH]; simpl; [tauto|]. intro Hx.
  assert (K : In x (spec_global h n) -> exists p want,
      In (OPush p n want (h_beh x)) (o :: h) /\ h_want x = bound n want).
  { intro Hx'. destruct (IH Hx') as (p & v & A & B). exists p, v. simpl; auto. }
  destruct o; auto.
  - rewrite same_name_eqb in Hx. destruct (negb (init_done h) && name_eqb n0 n) eqn:E1; auto.
    apply in_app_or in Hx as [Hx|[<-|[]]]; [auto|].
    apply andb_prop in E1 as [_ E1]. apply name_eqb_eq in E1; subst n0.
    exists g, want. simpl. auto.
  - destruct (init_done h); auto. apply in_without in Hx as [Hx _]. auto.
Qed.

Lemma last_opt_in A (l : list A) x : last_opt l = Some x -> In x l.
Proof.
  unfold last_opt. destruct (rev l) eqn:E; [discriminate|]. intro H; injection H as ->.
  apply in_rev. rewrite E. simpl; auto.
Qed.

Lemma last_mock_in w g n x : last_mock w g n = Some x ->
  In x (local_list w g n) \/ In x (w_global w n).
Proof.
  unfold last_mock. destruct (local_list w g n) eqn:E; intro H; apply last_opt_in in H; auto.
Qed.

Lemma mock_bound rs h w g pc recv x p want :
  run rs h = Some w -> distinct_handlers h ->
  applied_mock w g pc recv = Some x ->
  In (OPush p (Mock pc) want (h_beh x)) h ->
  want = None \/ want = recv.
Proof.
  intros H D A P. unfold applied_mock in A.
  destruct (last_mock w g (Mock pc)) as [y|] eqn:E; [|discriminate].
  destruct (recv_ok (h_want y) recv) eqn:R; [|discriminate]. injection A as ->.
  assert (W : h_want x = want).
  { apply last_mock_in in E as [E|E].
    - destruct (local_provenance _ _ _ H _ _ _ E) as (p' & v & B & C).
      rewrite C by auto. destruct (D _ _ _ _ _ _ _ P B) as [_ ->]. reflexivity.
    - rewrite (run_global _ _ _ H) in E. destruct (global_provenance _ _ _ E) as (p' & v & B & C).
      rewrite C. destruct (D _ _ _ _ _ _ _ P B) as [_ ->]. reflexivity. }
  rewrite W in R. destruct want; auto. right. simpl in R. destruct recv; [|discriminate].
  apply Nat.eqb_eq in R. congruence.
Qed.

Lemma recorder_bound rs h w g pc recv x p want :
  run rs h = Some w -> distinct_handlers h ->
  In x (applied_recorders w g pc recv) ->
  (exists c, h_id x = Some c) ->
  In (OPush p (Rec pc) want (h_beh x)) h ->
  want = None \/ want = recv.
Proof.
  intros H D A C P. unfold applied_recorders in A. apply filter_In in A as [A R].
  rewrite handlers_app in A.
  assert (W : h_want x = want).
  { apply in_app_or in A as [E|E].
    - destruct (local_provenance _ _ _ H _ _ _ E) as (p' & v & B & C').
      rewrite C' by auto. destruct (D _ _ _ _ _ _ _ P B) as [_ ->]. reflexivity.
    - rewrite (run_global _ _ _ H) in E. destruct (global_provenance _ _ _ E) as (p' & v & B & C').
      rewrite C'. destruct (D _ _ _ _ _ _ _ P B) as [_ ->]. reflexivity. }
  rewrite W in R. destruct want; auto. right. simpl in R. destruct recv; [|discriminate].
  apply Nat.eqb_eq in R. congruence.
Qed.

(** *** C06 *)
Lemma init_done_app h2 h : init_done h = true -> init_done (h2 ++ h) = true.
Proof. induction h2 as [|o h2 IH]; simpl; auto. destruct o; auto. Qed.

Lemma spec_global_stable h2 h n : init_done h = true -> spec_global (h2 ++ h) n = spec_global h n.
Proof.
  intro E. induction h2 as [|o h2 IH]; simpl; auto.
  destruct o; auto; now rewrite (init_done_app _ _ E).
Qed.

Lemma global_permanent rs h2 h w w' n x g :
  run rs h = Some w -> init_done h = true -> run rs (h2 ++ h) = Some w' ->
  In x (w_global w n) -> In x (handlers w' g n).
Proof.
  intros H E H' X. rewrite handlers_app, (run_global _ _ _ H'), spec_global_stable; auto.
  apply in_or_app. right. now rewrite <- (run_global _ _ _ H).
Qed.

(** *** C14, C15, C18 *)
Lemma step_tracing_frames rs w o w' r g :
  step rs w o = Some (w', r) -> quiet g o -> g_live (w_slots w g) = true ->
  g_frames (w_slots w' g) = g_frames (w_slots w g) /\ g_live (w_slots w' g) = true.
Proof.
  intros S Q L. destruct o; simpl in S, Q.
  - destruct (w_init w); [discriminate|]. injection S as <- <-. auto.
  - destruct (g_live (w_slots w g0)) eqn:El; [|discriminate]. injection S as <- <-.
    unfold push. destruct (w_init w); [|auto]. unfold get_or_attach.
    destruct (g_stack (w_slots w g0)); simpl; auto.
    unfold upd. destruct (g0 =? g) eqn:E; auto. apply Nat.eqb_eq in E; subst. auto.
  - destruct (nth_error (w_cancels w) c) as [cl|]; [|discriminate]. injection S as S.
    replace w' with (fst (cancel w c cl)) by now rewrite S.
    unfold cancel. destruct (c_ref cl).
    + destruct (w_init w); auto. destruct (cancel_list _ _); auto.
    + destruct (cancel_list _ _); auto.
  - destruct (g_live (w_slots w g0)) eqn:E1; [|discriminate].
    destruct (g_live (w_slots w s)) eqn:E2; [discriminate|]. simpl in S. injection S as <- <-.
    assert (N : s <> g) by congruence.
    unfold go. destruct rs; simpl; [rewrite upd_other; auto|].
    destruct (negb (w_init w)); simpl; [rewrite upd_other; auto|].
    destruct (g_stack (w_slots w g0)); simpl; [|rewrite upd_other; auto].
    unfold get_or_attach. simpl. rewrite upd_same. simpl. rewrite !upd_other; auto.
  - destruct (g_live (w_slots w g0)); [|discriminate]. injection S as <- <-. simpl.
    rewrite upd_other; auto.
  - destruct (_ && _); [|discriminate]. injection S as <- <-.
    unfold trace_begin. destruct (g_stack (w_slots w g0)).
    + destruct (s_tracing (w_heap w n)); simpl; rewrite upd_other; auto.
    + destruct sink; simpl; rewrite upd_other; auto.
  - destruct (g_live (w_slots w g0)); [|discriminate].
    destruct (g_frames (w_slots w g0)); [discriminate|]. injection S as <- <-. simpl.
    rewrite upd_other; auto.
Qed.

Lemma run_quiet rs body h w w' g :
  run rs h = Some w -> run rs (body ++ h) = Some w' ->
  Forall (quiet g) body -> g_live (w_slots w g) = true ->
  g_frames (w_slots w' g) = g_frames (w_slots w g) /\ g_live (w_slots w' g) = true.
Proof.
  intros H. revert w'. induction body as [|o body IH]; intros w' H' Q L; simpl in H'.
  - rewrite H in H'. injection H' as <-. auto.
  - inversion Q; subst. destruct (run rs (body ++ h)) as [w1|] eqn:E; [|discriminate].
    destruct (step rs w1 o) as [[w2 r]|] eqn:Es; [|discriminate]. injection H' as <-.
    destruct (IH _ eq_refl) as [A B]; auto.
    destruct (step_tracing_frames _ _ _ _ _ _ Es H2 B) as [C D]. split; congruence.
Qed.

Lemma trace_sink_ends rs h body w w' g :
  run rs h = Some w -> tracing w g = false ->
  Forall (quiet g) body ->
  run rs (OTraceEnd g :: body ++ OTraceBegin g true :: h) = Some w' ->
  tracing w' g = false.
Proof.
  intros H T Q R. pose proof (run_inv _ _ _ H) as I.
  simpl in R. destruct (run rs (body ++ OTraceBegin g true :: h)) as [w2|] eqn:E2; [|discriminate].
  destruct (run rs (OTraceBegin g true :: h)) as [w1|] eqn:E1.
  2:{ exfalso. clear R Q. revert w2 E2. clear - E1. induction body; simpl in *; intros; [congruence|].
      destruct (run rs (body ++ OTraceBegin g true :: h)); [eauto|discriminate]. }
  assert (F : g_frames (w_slots w1 g) = true :: g_frames (w_slots w g) /\ g_live (w_slots w1 g) = true).
  { destruct (run_step _ _ _ _ _ H E1) as (r & S). simpl in S.
    destruct (g_live (w_slots w g)) eqn:El; [|discriminate].
    destruct (w_init w); simpl in S; [|discriminate]. injection S as <- <-.
    unfold trace_begin. unfold tracing in T. destruct (g_stack (w_slots w g)) eqn:Es.
    - rewrite T. simpl. rewrite upd_same. auto.
    - simpl. rewrite upd_same. auto. }
  destruct F as [F L]. destruct (run_quiet _ _ _ _ _ _ E1 E2 Q L) as [F2 L2].
  simpl in R. rewrite L2, F2, F in R. injection R as <-.
  unfold tracing, trace_end; simpl. now rewrite upd_same.
Qed.

Lemma step_tracing rs h w o w' r g :
  Inv h w -> step rs w o = Some (w', r) -> quiet g o -> g_live (w_slots w g) = true ->
  tracing w' g = tracing w g.
Proof.
  intros I S Q L. unfold tracing. pose proof (fun sp => i_slot_lt _ _ I g sp) as LT.
  destruct o; simpl in S, Q.
  - destruct (w_init w); [discriminate|]. injection S as <- <-. auto.
  - destruct (g_live (w_slots w g0)) eqn:El; [|discriminate]. injection S as <- <-.
    unfold push. destruct (w_init w); [|auto]. unfold get_or_attach.
    destruct (g_stack (w_slots w g0)) as [sp|] eqn:Es; simpl.
    + destruct (g_stack (w_slots w g)) as [sp'|]; auto. unfold upd. destruct (Nat.eqb_spec sp sp'); subst; auto.
    + unfold upd at 1. destruct (Nat.eqb_spec g0 g) as [->|N]; simpl.
      * rewrite Es, !upd_same. reflexivity.
      * destruct (g_stack (w_slots w g)) as [sp'|]; auto. destruct (LT _ eq_refl) as [? _]. rewrite !upd_other by lia. reflexivity.
  - destruct (nth_error (w_cancels w) c) as [cl|]; [|discriminate]. injection S as S.
    replace w' with (fst (cancel w c cl)) by now rewrite S.
    unfold cancel. destruct (c_ref cl).
    + destruct (w_init w); auto. destruct (cancel_list _ _); auto.
    + destruct (cancel_list _ _); auto. simpl. destruct (g_stack (w_slots w g)) as [sp'|]; auto.
      unfold upd. destruct (Nat.eqb_spec sp sp'); subst; auto.
  - destruct (g_live (w_slots w g0)) eqn:E1; [|discriminate].
    destruct (g_live (w_slots w s)) eqn:E2; [discriminate|]. simpl in S. injection S as <- <-.
    assert (N : s <> g) by congruence.
    unfold go. destruct rs; simpl; [rewrite upd_other; auto|].
    destruct (negb (w_init w)); simpl; [rewrite upd_other; auto|].
    destruct (g_stack (w_slots w g0)); simpl; [|rewrite upd_other; auto].
    unfold get_or_attach. simpl. rewrite upd_same. simpl. rewrite !upd_other by auto.
    destruct (g_stack (w_slots w g)) as [sp'|]; auto. destruct (LT _ eq_refl) as [? _]. rewrite !upd_other by lia. reflexivity.
  - destruct (g_live (w_slots w g0)); [|discriminate]. injection S as <- <-. simpl.
    rewrite upd_other; auto.
  - destruct (_ && _); [|discriminate]. injection S as <- <-.
    unfold trace_begin. destruct (g_stack (w_slots w g0)) as [sp|] eqn:Es.
    + assert (D : forall sp', g_stack (w_slots w g) = Some sp' -> sp <> sp').
      { intros sp' E ->. apply Q. exact (i_slot_inj _ _ I _ _ _ Es E). }
      destruct (s_tracing (w_heap w sp)); simpl; rewrite upd_other by auto; auto.
      destruct (g_stack (w_slots w g)) as [sp'|]; auto. rewrite upd_other; auto.
    + destruct sink; simpl; rewrite upd_other by auto; destruct (g_stack (w_slots w g)) as [sp'|]; auto;
        destruct (LT _ eq_refl) as [? _]; rewrite !upd_other by lia; reflexivity.
  - destruct (g_live (w_slots w g0)); [|discriminate].
    destruct (g_frames (w_slots w g0)); [discriminate|]. injection S as <- <-. simpl.
    rewrite upd_other; auto.
Qed.
Lemma run_tracing rs body h w w' g :
  run rs h = Some w -> run rs (body ++ h) = Some w' ->
  Forall (quiet g) body -> g_live (w_slots w g) = true ->
  tracing w' g = tracing w g.
Proof.
  intros H. revert w'. induction body as [|o body IH]; intros w' H' Q L; simpl in H'.
  - rewrite H in H'. injection H' as <-. auto.
  - inversion Q; subst. destruct (run rs (body ++ h)) as [w1|] eqn:E; [|discriminate].
    destruct (step rs w1 o) as [[w2 r]|] eqn:Es; [|discriminate]. injection H' as <-.
    destruct (run_quiet _ _ _ _ _ g H E) as [_ B]; auto.
    rewrite <- (IH _ eq_refl); auto. eapply step_tracing; eauto. eapply run_inv; eauto.
Qed.
Lemma trace_lasts rs h body w' g :
  Forall (quiet g) body ->
  run rs (body ++ OTraceBegin g true :: h) = Some w' -> tracing w' g = true.
Proof.
  intros Q E2. destruct (run rs (OTraceBegin g true :: h)) as [w1|] eqn:E1.
  2:{ exfalso. clear Q. revert w' E2. clear - E1. induction body; simpl in *; intros; [congruence|].
      destruct (run rs (body ++ OTraceBegin g true :: h)); [eauto|discriminate]. }
  assert (F : tracing w1 g = true /\ g_live (w_slots w1 g) = true).
  { simpl in E1. destruct (run rs h) as [w|]; [|discriminate].
    destruct (g_live (w_slots w g)) eqn:El; [|discriminate].
    destruct (w_init w); simpl in E1; [|discriminate]. injection E1 as <-.
    unfold trace_begin, tracing. destruct (g_stack (w_slots w g)) as [sp|] eqn:Es.
    - destruct (s_tracing (w_heap w sp)) eqn:T; simpl; rewrite upd_same; simpl; rewrite ?upd_same; auto.
    - simpl. rewrite upd_same. simpl. rewrite upd_same. auto. }
  destruct F as [F L]. now rewrite (run_tracing _ _ _ _ _ _ E1 E2 Q L).
Qed.

Lemma go_fresh rs h w p s w' r n :
  run rs h = Some w -> step rs w (OGo p s) = Some (w', r) ->
  local_list w' s n = (if rs then [] else map (clone_holder n) (local_list w p n)) /\
  g_frames (w_slots w' s) = [] /\
  tracing w' s = (if rs then false else tracing w p).
Proof.
  intros H S. pose proof (run_inv _ _ _ H) as I.
  rewrite (step_local _ _ _ _ _ _ s n I S). simpl. rewrite Nat.eqb_refl. split; auto.
  simpl in S. destruct (g_live (w_slots w p)) eqn:E1; [|discriminate].
  destruct (g_live (w_slots w s)) eqn:E2; [discriminate|]. simpl in S. injection S as <- <-.
  unfold go. destruct rs; simpl.
  - unfold tracing. simpl. now rewrite upd_same.
  - destruct (w_init w) eqn:Ei; simpl.
    + unfold tracing at 2. destruct (g_stack (w_slots w p)) eqn:Es.
      * unfold get_or_attach. simpl. rewrite upd_same. unfold tracing. simpl.
        rewrite !upd_same. simpl. rewrite upd_same. auto.
      * unfold tracing. simpl. now rewrite upd_same.
    + unfold tracing. simpl. rewrite upd_same. simpl. split; auto.
      destruct (g_stack (w_slots w p)) eqn:Es; auto.
      apply (i_slot_lt _ _ I) in Es. destruct Es as (_ & _ & Es). congruence.
Qed.

Lemma trace_begin_neutral rs h w g sink w' r :
  run rs h = Some w -> step rs w (OTraceBegin g sink) = Some (w', r) ->
  forall g' n, last_mock w' g' n = last_mock w g' n /\ handlers w' g' n = handlers w g' n.
Proof.
  intros H S g' n. pose proof (run_inv _ _ _ H) as I.
  pose proof (step_local _ _ _ _ _ _ g' n I S) as L. simpl in L.
  assert (G : forall m, w_global w' m = w_global w m).
  { intro m. rewrite (run_global _ _ _ (step_run _ _ _ _ _ _ H S)), (run_global _ _ _ H). reflexivity. }
  unfold last_mock. rewrite !handlers_app, L, G. auto.
Qed.

Lemma trace_end_others rs h w g w' r :
  run rs h = Some w -> step rs w (OTraceEnd g) = Some (w', r) ->
  forall g' n, g' <> g -> last_mock w' g' n = last_mock w g' n /\ handlers w' g' n = handlers w g' n.
Proof.
  intros H S g' n N. pose proof (run_inv _ _ _ H) as I.
  pose proof (step_local _ _ _ _ _ _ g' n I S) as L. simpl in L.
  assert (E : (g =? g') = false) by (apply Nat.eqb_neq; auto). rewrite E in L.
  assert (L' : local_list w' g' n = local_list w g' n).
  { destruct (g_frames (w_slots w g)) as [|[] ?]; auto. }
  assert (G : forall m, w_global w' m = w_global w m).
  { intro m. rewrite (run_global _ _ _ (step_run _ _ _ _ _ _ H S)), (run_global _ _ _ H). reflexivity. }
  unfold last_mock. rewrite !handlers_app, L', G. auto.
Qed.

(** Helpers to exhibit concrete runs. *)
Lemma ex_run (o : option world) (P : world -> Prop) :
  match o with Some w => P w | None => False end -> exists w, o = Some w /\ P w.
Proof. destruct o; [eauto|tauto]. Qed.
Lemma ex_step (o : option (world * outcome)) r (P : world -> Prop) :
  match o with Some (w, r') => r' = r /\ P w | None => False end ->
  exists w, o = Some (w, r) /\ P w.
Proof. destruct o as [[w r']|]; [intros [-> H]; eauto|tauto]. Qed.

(** Which handlers act. *)
Lemma recv_ok_acts r recv : recv_ok (h_want r) recv = true <-> acts_on recv r.
Proof.
  unfold recv_ok, acts_on. destruct (h_want r) as [p|]; [|split; auto]. destruct recv as [q|].
  - rewrite Nat.eqb_eq. split; [intros ->; auto|intros [H|H]; congruence].
  - split; [discriminate|intros [H|H]; congruence].
Qed.
Lemma mock_applied rs h w g pc recv : run rs h = Some w -> trace_free h ->
  (forall r, spec_mock rs h g (Mock pc) = Some r -> acts_on recv r -> applied_mock w g pc recv = Some r) /\
  (forall r, spec_mock rs h g (Mock pc) = Some r -> ~ acts_on recv r -> applied_mock w g pc recv = None) /\
  (spec_mock rs h g (Mock pc) = None -> applied_mock w g pc recv = None).
Proof.
  intros H T. unfold applied_mock. rewrite (C01_lemma rs h w g (Mock pc) H T eq_refl).
  repeat split; [intros r E A|intros r E A|intros E]; rewrite E; auto.
  - apply recv_ok_acts in A. now rewrite A.
  - rewrite <- recv_ok_acts in A. destruct (recv_ok (h_want r) recv); congruence.
Qed.
Lemma recorders_applied rs h w g pc recv : run rs h = Some w ->
  exists keep, applied_recorders w g pc recv = filter keep (local_list w g (Rec pc) ++ spec_global h (Rec pc)) /\
    (forall r, keep r = true <-> acts_on recv r).
Proof.
  intros H. exists (fun r => recv_ok (h_want r) recv). unfold applied_recorders. rewrite handlers_app, (run_global _ _ _ H).
  split; [reflexivity|]. intros r. apply recv_ok_acts.
Qed.
Lemma effects_sim n a b : Forall2 (hsim n) a b -> map h_beh a = map h_beh b.
Proof. induction 1 as [|x y a b (E1 & E2 & E3) F IH]; simpl; congruence. Qed.
Lemma recorders_listed rs h w g n : run rs h = Some w -> trace_free h ->
  map h_beh (handlers w g n) = map h_beh (spec_handlers rs h g n).
Proof.
  intros H T. rewrite handlers_app, (run_global _ _ _ H). unfold spec_handlers. rewrite !map_app. f_equal.
  eapply effects_sim. eapply run_local; eauto.
Qed.
Lemma interceptors_listed rs h w g n : run rs h = Some w -> trace_free h -> is_rec_name n = false ->
  handlers w g n = spec_handlers rs h g n.
Proof. intros H T R. rewrite handlers_app, (run_global _ _ _ H), (run_local_eq _ _ _ _ _ H T R). reflexivity. Qed.
