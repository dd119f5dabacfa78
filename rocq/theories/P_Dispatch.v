From Coq Require Import List Arith Bool Lia.
From Verif Require Import M_Dispatch S_Dispatch.
Import ListNotations.

Lemma same_recv_aims want recv : same_recv want recv = aims want recv.
Proof.
  destruct want as [p|]; [|reflexivity]. unfold aims. destruct (opt_dec (Some p) recv) as [<-|N]; [apply Nat.eqb_refl|].
  destruct recv as [q|]; [|reflexivity]. cbn. apply Nat.eqb_neq. congruence.
Qed.

Lemma before_stop_app_stop a b : existsb stops a = true -> before_stop (a ++ b) = before_stop a.
Proof.
  induction a as [|h a IH]; simpl; [discriminate|].
  destruct (stops h) eqn:E; simpl; auto. intro H. f_equal. auto.
Qed.
Lemma before_stop_app_go a b : existsb stops a = false -> before_stop (a ++ b) = a ++ before_stop b.
Proof.
  induction a as [|h a IH]; simpl; auto.
  destruct (stops h) eqn:E; simpl; [discriminate|]. intro H. f_equal. auto.
Qed.
Lemma before_stop_none a : existsb stops a = false -> before_stop a = a.
Proof. intro H. rewrite <- (app_nil_r a) at 1. rewrite before_stop_app_go; auto. apply app_nil_r. Qed.

Lemma pre_loop_stop recv hs : l_stop (pre_loop recv hs) = existsb stops (applicable recv hs).
Proof.
  induction hs as [|h hs IH]; simpl; auto. rewrite same_recv_aims.
  destruct (aims (d_want h) recv); simpl; auto.
  unfold stops at 1. destruct (d_pre h) as [[d []]|]; simpl; auto.
Qed.

Lemma pre_loop_thunks recv hs :
  l_thunks (pre_loop recv hs) =
  map (fun h => (h, pre_data h)) (filter d_post (before_stop (applicable recv hs))).
Proof.
  induction hs as [|h hs IH]; simpl; auto. rewrite same_recv_aims.
  destruct (aims (d_want h) recv) eqn:Ew; simpl; auto.
  unfold stops. destruct (d_pre h) as [[d []]|] eqn:E; simpl; auto;
    rewrite IH; destruct (d_post h) eqn:Ep; simpl; auto; unfold pre_data; rewrite E; reflexivity.
Qed.

Lemma cut_posts (l : list event) : (forall e, In e l -> e <> ENilCall) -> cut l = l.
Proof.
  induction l as [|e l IH]; simpl; intro H; auto.
  assert (e <> ENilCall) by auto. destruct e; try congruence; f_equal; auto.
Qed.

Lemma map_run_per var l : (forall t, In t l -> d_post (fst t) = true) ->
  map (run_thunk PerIteration var) l = map (fun t => EPost (d_id (fst t)) (snd t)) l.
Proof.
  intro H. apply map_ext_in. intros t Ht. unfold run_thunk. now rewrite (H _ Ht).
Qed.

Lemma dispatch_mocked lv recv recs inters :
  r_mocked (dispatch lv recv recs inters) =
  existsb stops (applicable recv recs ++ applicable recv inters).
Proof.
  unfold dispatch; simpl. rewrite pre_loop_stop, existsb_app.
  destruct (existsb stops (applicable recv recs)) eqn:E; simpl; auto.
  apply pre_loop_stop.
Qed.

Lemma posts_exact recv hs var :
  map (run_thunk PerIteration var) (l_thunks (pre_loop recv hs)) =
  map (fun h => EPost (d_id h) (pre_data h)) (filter d_post (before_stop (applicable recv hs))).
Proof.
  rewrite pre_loop_thunks, map_run_per.
  - rewrite map_map. reflexivity.
  - intros t Ht. apply in_map_iff in Ht as (h & <- & Hh). apply filter_In in Hh. tauto.
Qed.

Theorem pairing_per_iteration recv recs inters :
  r_posts (dispatch PerIteration recv recs inters) =
  expected_posts (applicable recv recs ++ applicable recv inters).
Proof.
  unfold dispatch, expected_posts; simpl. rewrite pre_loop_stop, posts_exact.
  set (A := map (fun h => EPost (d_id h) (pre_data h)) (filter d_post (before_stop (applicable recv recs)))).
  assert (Cut : forall l, cut (rev (A ++ map (fun h => EPost (d_id h) (pre_data h)) l)) =
                          rev (A ++ map (fun h => EPost (d_id h) (pre_data h)) l)).
  { intro l. apply cut_posts. intros e He. apply in_rev in He. apply in_app_or in He.
    destruct He as [He|He]; apply in_map_iff in He as (x & <- & _); discriminate. }
  destruct (existsb stops (applicable recv recs)) eqn:E; simpl.
  - rewrite before_stop_app_stop; auto. specialize (Cut []). simpl in Cut. rewrite app_nil_r in *. exact Cut.
  - rewrite posts_exact, Cut, before_stop_app_go, filter_app, map_app by auto.
    f_equal. f_equal. subst A. now rewrite before_stop_none.
Qed.


Lemma short_shared recv hs : length hs <= 1 ->
  map (run_thunk Shared (l_var (pre_loop recv hs))) (l_thunks (pre_loop recv hs)) =
  map (run_thunk PerIteration None) (l_thunks (pre_loop recv hs)).
Proof.
  destruct hs as [|h [|h2 hs]]; simpl; intro L; [reflexivity| |lia].
  destruct (same_recv (d_want h) recv); simpl; auto.
  destruct (d_pre h) as [[d []]|]; simpl; auto; destruct (d_post h) eqn:E; simpl; auto.
Qed.

Theorem pairing_shared_short recv recs inters :
  length recs <= 1 -> length inters <= 1 ->
  r_posts (dispatch Shared recv recs inters) =
  expected_posts (applicable recv recs ++ applicable recv inters).
Proof.
  intros L1 L2. rewrite <- pairing_per_iteration. unfold dispatch; simpl.
  rewrite (short_shared _ _ L1).
  destruct (l_stop (pre_loop recv recs)); simpl; auto.
  now rewrite (short_shared _ _ L2).
Qed.

(** C10 *)
Definition is_pre_post (e : event) : Prop :=
  match e with EBody => False | _ => True end.

Lemma count_body_app a b : count_body (a ++ b) = count_body a + count_body b.
Proof. induction a as [|e a IH]; simpl; auto. destruct e; simpl; lia. Qed.
Lemma count_none l : (forall e, In e l -> e <> EBody) -> count_body l = 0.
Proof.
  induction l as [|e l IH]; simpl; auto. intro H. assert (e <> EBody) by auto.
  destruct e; try congruence; apply IH; auto.
Qed.
Lemma pres_no_body recv hs e : In e (l_events (pre_loop recv hs)) -> e <> EBody.
Proof.
  revert e. induction hs as [|h hs IH]; simpl; [tauto|]. intro e.
  destruct (negb (same_recv (d_want h) recv)); simpl; [apply IH|].
  destruct (d_pre h) as [[d []]|]; simpl.
  - intros [<-|[]]; discriminate.
  - intros [<-|H]; [discriminate|auto].
  - apply IH.
Qed.
Lemma cut_incl l e : In e (cut l) -> In e l.
Proof.
  induction l as [|x l IH]; simpl; [tauto|]. destruct x; simpl; intros [H|H]; auto; tauto.
Qed.
Lemma dispatch_no_body lv recv recs inters e :
  In e (r_pres (dispatch lv recv recs inters)) \/ In e (r_posts (dispatch lv recv recs inters)) ->
  e <> EBody.
Proof.
  unfold dispatch; simpl. intros [H|H].
  - apply in_app_or in H as [H|H]; [eapply pres_no_body; eauto|].
    destruct (l_stop (pre_loop recv recs)); [simpl in H; tauto|eapply pres_no_body; eauto].
  - apply cut_incl in H. apply in_rev in H. apply in_app_or in H as [H|H];
      apply in_map_iff in H as (t & <- & _); unfold run_thunk;
      destruct lv; repeat (match goal with |- context [match ?x with _ => _ end] => destruct x end);
      discriminate.
Qed.

Lemma trap_stop lv s : cs_inspecting s = false ->
  snd (trap lv s) =
  (existsb stops (consulted s) ||
   match cs_mock s with Some (want, ok) => same_recv want (cs_recv s) && ok | None => false end).
Proof.
  intro Hi. unfold trap. rewrite Hi.
  set (inters := if cs_depth s <=? 1 then cs_inters s else []).
  assert (E : r_mocked (dispatch lv (cs_recv s) (cs_recs s) inters) = existsb stops (consulted s)).
  { rewrite dispatch_mocked. unfold consulted. subst inters. destruct (cs_depth s <=? 1); reflexivity. }
  rewrite E. destruct (existsb stops (consulted s)); simpl.
  - destruct (negb (cs_tracing s && cs_allow s)); reflexivity.
  - destruct (cs_mock s) as [[want ok]|]; [destruct (same_recv want (cs_recv s))|]; simpl;
      destruct (1 <? cs_depth s); destruct (negb (cs_tracing s && cs_allow s)); reflexivity.
Qed.

Lemma same_recv_iff want recv : same_recv want recv = true <-> want = None \/ want = recv.
Proof.
  destruct want as [p|]; simpl; [|split; auto]. destruct recv as [q|].
  - rewrite Nat.eqb_eq. split; [intros ->; auto|intros [H|H]; congruence].
  - split; [discriminate|intros [H|H]; congruence].
Qed.

Lemma trap_no_body lv s :
  count_body (fst (fst (trap lv s))) = 0 /\ count_body (snd (fst (trap lv s))) = 0.
Proof.
  unfold trap. destruct (cs_inspecting s); [auto|].
  set (inters := if cs_depth s <=? 1 then cs_inters s else []).
  set (d := dispatch lv (cs_recv s) (cs_recs s) inters).
  assert (P : count_body (r_pres d) = 0).
  { apply count_none. intros e He. eapply dispatch_no_body. left. exact He. }
  assert (Q : count_body (r_posts d) = 0).
  { apply count_none. intros e He. eapply dispatch_no_body. right. exact He. }
  assert (P' : count_body (r_pres d ++ [EMock]) = 0) by (rewrite count_body_app, P; reflexivity).
  repeat (match goal with |- context [match ?x with _ => _ end] => destruct x end); simpl; auto.
Qed.

Theorem body_iff_not_replaced lv s : cs_inspecting s = false ->
  (count_body (call lv s) = 0 <-> replaced s) /\ (count_body (call lv s) = 1 <-> ~ replaced s).
Proof.
  intro Hi. pose proof (trap_stop lv s Hi) as S. pose proof (trap_no_body lv s) as [A B].
  unfold call. destruct (trap lv s) as [[pre post] stop]. simpl in *.
  rewrite !count_body_app, A, B.
  assert (R : stop = true <-> replaced s).
  { rewrite S, orb_true_iff. unfold replaced. split.
    - intros [H|H].
      + left. apply existsb_exists in H. exact H.
      + destruct (existsb stops (consulted s)) eqn:E.
        * left. apply existsb_exists in E. exact E.
        * right. split.
          -- intros h Hh. destruct (stops h) eqn:Es; auto.
             assert (existsb stops (consulted s) = true) by (apply existsb_exists; eauto). congruence.
          -- destruct (cs_mock s) as [[want ok]|]; [|discriminate].
             apply andb_prop in H as [H1 ->]. exists want. split; auto. now apply same_recv_iff.
    - intros [H|[_ (want & -> & H)]].
      + left. now apply existsb_exists.
      + right. apply same_recv_iff in H. now rewrite H. }
  destruct stop; simpl; rewrite <- R; split; split; intro; try lia; try congruence; auto.
Qed.

(** The whole sequence *)
Lemma pre_loop_events recv hs : l_events (pre_loop recv hs) = expected_pres (applicable recv hs).
Proof.
  unfold expected_pres. induction hs as [|h hs IH]; simpl; auto. rewrite same_recv_aims.
  destruct (aims (d_want h) recv); simpl; auto.
  unfold stops, has_pre. destruct (d_pre h) as [[d []]|]; simpl; auto. now rewrite IH.
Qed.
Lemma through_stop_app a b : through_stop (a ++ b) = through_stop a ++ (if existsb stops a then [] else through_stop b).
Proof. induction a as [|h a IH]; simpl; auto. destruct (stops h); simpl; auto. now rewrite IH. Qed.
Lemma dispatch_pres lv recv recs inters :
  r_pres (dispatch lv recv recs inters) = expected_pres (applicable recv recs ++ applicable recv inters).
Proof.
  unfold dispatch; simpl. rewrite pre_loop_stop, pre_loop_events. unfold expected_pres.
  rewrite through_stop_app, filter_app, map_app. f_equal.
  destruct (existsb stops (applicable recv recs)); [reflexivity|]. now rewrite pre_loop_events.
Qed.
Lemma call_sequence lv s : cs_inspecting s = false ->
  lv = PerIteration \/ length (cs_recs s) <= 1 /\ length (cs_inters s) <= 1 ->
  call lv s = expected_call s.
Proof.
  intros Hi L. unfold call, trap, expected_call. rewrite Hi.
  set (inters := if cs_depth s <=? 1 then cs_inters s else []).
  assert (C : applicable (cs_recv s) (cs_recs s) ++ applicable (cs_recv s) inters = consulted s).
  { unfold consulted. subst inters. destruct (cs_depth s <=? 1); reflexivity. }
  assert (Em : r_mocked (dispatch lv (cs_recv s) (cs_recs s) inters) = existsb stops (consulted s)) by now rewrite dispatch_mocked, C.
  assert (Ep : r_pres (dispatch lv (cs_recv s) (cs_recs s) inters) = expected_pres (consulted s)) by now rewrite dispatch_pres, C.
  assert (Eq : r_posts (dispatch lv (cs_recv s) (cs_recs s) inters) = expected_posts (consulted s)).
  { rewrite <- C. destruct lv; [|apply pairing_per_iteration]. destruct L as [L|[L1 L2]]; [discriminate|].
    apply pairing_shared_short; auto. subst inters. destruct (cs_depth s <=? 1); simpl; lia. }
  rewrite Em, Ep, Eq. unfold mock_asked.
  destruct (existsb stops (consulted s)); simpl.
  - destruct (negb (cs_tracing s && cs_allow s)); reflexivity.
  - destruct (cs_mock s) as [[want ok]|]; [rewrite same_recv_aims; destruct (aims want (cs_recv s)); [destruct ok|]|]; simpl;
      destruct (1 <? cs_depth s); destruct (negb (cs_tracing s && cs_allow s)); simpl; rewrite <- ?app_assoc; reflexivity.
Qed.

Lemma var_thunks_gen hs ev th v :
  let '(e, t, _) := fold_left
    (fun acc h =>
       match acc with
       | (ev, th, _) =>
           (ev ++ (match d_pre h with Some _ => [EPre (d_id h)] | None => [] end),
            th ++ (if d_post h then [(h, option_map fst (d_pre h))] else []),
            Some h)
       end) hs (ev, th, v) in
  e = ev ++ map (fun h => EPre (d_id h)) (filter has_pre hs) /\
  t = th ++ map (fun h => (h, pre_data h)) (filter d_post hs).
Proof.
  revert ev th v. induction hs as [|h hs IH]; intros ev th v; simpl; [now rewrite !app_nil_r|].
  specialize (IH (ev ++ match d_pre h with Some _ => [EPre (d_id h)] | None => [] end)
                 (th ++ (if d_post h then [(h, option_map fst (d_pre h))] else [])) (Some h)).
  destruct (fold_left _ hs _) as [[e t] v']. destruct IH as [-> ->]. rewrite <- !app_assoc.
  split; f_equal; unfold has_pre, pre_data; [destruct (d_pre h)|destruct (d_post h)]; reflexivity.
Qed.
Lemma var_thunks_spec hs : exists v, var_thunks hs =
  (map (fun h => EPre (d_id h)) (filter has_pre hs), map (fun h => (h, pre_data h)) (filter d_post hs), v).
Proof.
  pose proof (var_thunks_gen hs [] [] None) as H. unfold var_thunks. destruct (fold_left _ hs _) as [[e t] v].
  destruct H as [-> ->]. simpl. eauto.
Qed.
Lemma var_read_sequence mock recs inters :
  var_read PerIteration mock recs inters = expected_var_read mock (recs ++ inters).
Proof.
  unfold var_read, expected_var_read. destruct (var_thunks_spec recs) as (v1 & ->). destruct (var_thunks_spec inters) as (v2 & ->).
  assert (P : forall v hs, map (run_thunk PerIteration v) (map (fun h => (h, pre_data h)) (filter d_post hs)) =
                           map (fun h => EPost (d_id h) (pre_data h)) (filter d_post hs)).
  { intros v hs. rewrite map_map. apply map_ext_in. intros h Hh. apply filter_In in Hh as [_ Hh]. unfold run_thunk. simpl. now rewrite Hh. }
  rewrite !P, !filter_app, !map_app, <- !app_assoc. apply cut_posts. intros e He.
  repeat (apply in_app_or in He as [He|He]); try (apply in_map_iff in He as (x & <- & _); discriminate).
  destruct mock; [destruct He as [<-|[]]; discriminate|easy].
Qed.
Lemma var_read_short mock recs inters : length recs <= 1 -> length inters <= 1 ->
  var_read Shared mock recs inters = expected_var_read mock (recs ++ inters).
Proof.
  intros L1 L2. rewrite <- var_read_sequence. unfold var_read.
  destruct recs as [|a [|]]; [| |simpl in L1; lia]; (destruct inters as [|b [|]]; [| |simpl in L2; lia]); simpl;
    repeat match goal with |- context [d_post ?x] => destruct (d_post x) eqn:?; simpl end; try reflexivity;
    unfold run_thunk; simpl; repeat match goal with H : d_post _ = _ |- _ => rewrite H end; reflexivity.
Qed.
