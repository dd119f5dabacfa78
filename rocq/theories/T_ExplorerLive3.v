(** * C87: runs of the test explorer, with the builders of M_ExplorerRun *)
From Coq Require Import Ascii String List Arith Bool Lia.
From Verif Require Import M_Str M_Explorer M_ExplorerRun M_Session T_ExplorerRun M_ExplorerLive T_ExplorerLive T_ExplorerLive2.
Import ListNotations.
Open Scope nat_scope. Open Scope list_scope.

(** ** Proofs *)
Lemma send_all_log es : forall st, r_log (send_all st es) = r_log st ++ map (fun e => (e, r_heap st)) es.
Proof.
  induction es as [|e es IH]; intros st; cbn; [now rewrite app_nil_r|]. unfold send_all in IH. rewrite IH. cbn. now rewrite <- app_assoc.
Qed.
Lemma runs_cons S E (build : S -> bytes -> outcome S E) s l s1 es1 : build s l = Built s1 es1 -> forall ls s2 es2, runs build s1 ls s2 es2 -> runs build s (l :: ls) s2 (es1 ++ es2).
Proof.
  intros B ls s2 es2 R. induction R as [s1|s1 ls s2 es2 l2 s3 es3 R IH B2].
  - rewrite app_nil_r. apply (runs_snoc _ _ build s [] s [] l s1 es1); [constructor|exact B].
  - rewrite app_assoc. change (l :: ls ++ [l2]) with ((l :: ls) ++ [l2]). eapply runs_snoc; [apply IH; exact B|exact B2].
Qed.
Lemma consume_runs b root lines : forall st st1, consume b root st lines = CEof st1 -> exists es, runs (run_build b root) st lines st1 es /\ r_log st1 = r_log st ++ es.
Proof.
  induction lines as [|l lines IH]; intros st st1 C; cbn [consume] in C.
  - injection C as <-. exists []. split; [constructor|now rewrite app_nil_r].
  - destruct (b (r_heap st) (r_pm st) l) as [h es|msg|] eqn:Bq; try discriminate. apply IH in C as (es1 & R & L). exists (map (fun e => (e, h)) es ++ es1). split.
    + eapply runs_cons; [|exact R]. unfold run_build. now rewrite Bq.
    + rewrite L, send_all_log, <- app_assoc. reflexivity.
Qed.
Definition extends (st st' : rstate) : Prop := exists l, r_log st' = r_log st ++ l.
Lemma extends_refl st : extends st st. Proof. exists []. now rewrite app_nil_r. Qed.
Lemma extends_trans a b c : extends a b -> extends b c -> extends a c.
Proof. intros (l & L) (m & M). exists (l ++ m). now rewrite M, L, <- app_assoc. Qed.
Lemma extends_send st e : extends st (send st e). Proof. now exists [(e, r_heap st)]. Qed.
Lemma extends_heap st h : extends st (with_heap st h). Proof. exists []. cbn. now rewrite app_nil_r. Qed.
Lemma extends_at_end grow trace root st p s : extends st (at_end grow trace root st p s).
Proof.
  unfold at_end. cbv zeta. set (st1 := if pending s then _ else st). assert (X : extends st st1).
  { unfold st1. destruct (pending s); [|apply extends_refl]. destruct (alloc _ _ _) as [h s0]. destruct (append _ _ _ _) as [h' p']. eapply extends_trans; [apply extends_heap|apply extends_send]. }
  destruct trace as [recs|]; [|exact X]. destruct (trim_prefix _ _); [|exact X]. destruct (recs l); [|exact X]. eapply extends_trans; [exact X|apply extends_send].
Qed.
Lemma extends_traverse grow f : (forall st p s, extends st (f st p s)) -> forall t node p st, extends st (traverse grow f t node p st).
Proof.
  intros F. induction t as [r m IH] using pmap_ind'. intros node p st. cbn [traverse].
  set (st1 := match r with None => st | Some _ => _ end). assert (X : extends st st1).
  { unfold st1. destruct r; [|apply extends_refl]. destruct (pm_get _ _); [apply F|apply extends_refl]. }
  eapply extends_trans; [exact X|]. clearbody st1. clear X. revert st1. induction IH as [|[k v] m Hv IHm IH2]; intros st1; [apply extends_refl|].
  destruct (append _ _ _ _) as [h q]. eapply extends_trans; [|apply IH2]. eapply extends_trans; [apply extends_heap|]. apply Hv.
Qed.
Lemma extends_ending grow trace root err t st : extends st (ending grow trace root t (failed root err st)).
Proof.
  unfold ending. eapply extends_trans; [|apply extends_send]. eapply extends_trans; [|apply extends_traverse; intros; apply extends_at_end]. unfold failed. destruct err; [apply extends_send|apply extends_refl].
Qed.
Lemma extends_skipn st st' : extends st st' -> r_log st ++ skipn (length (r_log st)) (r_log st') = r_log st'.
Proof. intros (l & ->). now rewrite skipn_app, skipn_all, Nat.sub_diag. Qed.
Lemma reordered_refl : forall t, reordered t t.
Proof. induction t as [r m IH] using pmap_ind'. apply reordered_pm with (m1 := m); auto. clear -IH. induction IH; constructor; auto. Qed.
Lemma running_kinds grow base suffix todo : forall h i h' es, running_events grow h base suffix todo i = (h', es) -> Forall (fun e => e_kind e <> TestEnd) es.
Proof.
  induction todo as [|n IH]; intros h i h' es Q; cbn [running_events] in Q; [injection Q as _ <-; constructor|]. destruct (append _ _ _ _) as [h1 p]. destruct (running_events _ _ _ _ n _) as [h2 es2] eqn:Q2.
  injection Q as _ <-. constructor; [discriminate|eauto].
Qed.
Lemma build_event_kinds grow prefix mod_path resolve h pm t h' es : build_event grow prefix mod_path resolve h pm t = (h', es) -> Forall (fun e => e_kind e <> TestEnd) es.
Proof.
  unfold build_event. cbv zeta. set (q := match t_package t with [] => _ | _ => _ end). assert (X : Forall (fun e => e_kind e <> TestEnd) (snd (fst (fst q)))).
  { unfold q. destruct (t_package t); [constructor|]. destruct (t_test t); [destruct (append_copy _ _ _); destruct (pkg_sub_path _ _); [constructor|destruct (append _ _ _ _); constructor]|].
    destruct (match cut_first _ _ with Some (b, s) => _ | None => _ end) as [bt sf]. destruct (resolve _ _); [|constructor]. destruct (case_path _ _ _ _ _) as [h1 p]. destruct sf; [constructor|].
    destruct (append _ _ _ _) as [h2 p2]. destruct (pm_get _ _); [constructor|]. destruct (running_events _ _ _ _ _ _) as [h3 es3] eqn:Re. cbn. constructor; [discriminate|]. eapply running_kinds; eauto. }
  destruct q as [[[h1 pre] base] p]. cbn in X. intros Q. injection Q as _ <-. apply Forall_app. split; auto. constructor; [discriminate|]. destruct base; [|constructor]. destruct (0 <? s_len s); repeat constructor. discriminate.
Qed.
Lemma builder_kinds grow single decode prefix mod_path resolve root h pm line h' es :
  builder grow single decode prefix mod_path resolve root h pm line = BOk h' es -> Forall (fun e => e_kind e <> TestEnd) es.
Proof.
  unfold builder, plain_build, json_build. destruct single; [intros Q; injection Q as _ <-; repeat constructor; discriminate|].
  destruct (has_prefix line _).
  - destruct (decode line) as [t|]; [|discriminate]. destruct (build_event _ _ _ _ _ _ _) as [h1 es1] eqn:Be. intros Q. injection Q as _ <-. eapply build_event_kinds; eauto.
  - destruct (fail_pkg line); [|discriminate]. destruct (build_event _ _ _ _ _ _ _) as [h1 es1] eqn:Be. intros Q. injection Q as _ <-. eapply build_event_kinds; eauto.
Qed.

(** ** C87 *)
Section C87.
Variables (grow : nat -> nat -> nat) (trace : option (list bytes -> bool)) (single : bool) (decode : bytes -> test_event + bytes) (mod_path : bytes)
    (resolve : bytes -> bytes -> option bytes) (path : list bytes) (asked : list (list bytes)) (prefix : list bytes) (err : option bytes) (st0 : rstate) (root : slice) (extra : nat).
Let b := run_build (builder grow single decode prefix mod_path resolve root) root.
Let fin := run_final grow trace root err.
(** Whatever go test writes, a run comes to rest, if the page goes on polling. *)
Theorem C87_run_comes_to_rest first out e : Acc (fun y x => step _ _ b fin x y) (Live (started _ sent_event single st0 first out e)).
Proof. eapply settles; reflexivity. Qed.
(** At rest, if all lines are shorter than 64K and the builder accepts those of stdout: the page has got the events of
    the run as C86 has them, in their order, up to the end of the test; and all whole lines of stderr, in their order. *)
Theorem C87_all_delivered st1 ls last els elast : begin_run path asked prefix extra = (st0, root) ->
  consume (builder grow single decode prefix mod_path resolve root) root st0 (lines_of ls last) = CEof st1 ->
  text ls last -> Forall short ls -> short last -> text els elast -> Forall short els -> short elast -> (single = true -> els = [] /\ elast = []) ->
  forall s, steps _ _ b fin (Live (started _ _ single st0 (r_log st0) (written ls last) (written els elast))) s -> (forall y, ~ step _ _ b fin s y) ->
  exists x before after, s = Live x /\ run_ends grow trace single decode mod_path resolve path asked prefix (lines_of ls last) err before after /\
    mains (x_got x) = r_log after /\ plains (x_got x) = map drop_cr els.
Proof.
  intros B C T Sh Shl Te She Shel Hs s St Rest. destruct (consume_runs _ _ _ _ _ C) as (es & R & L).
  pose proof (inv_steps _ _ b fin ls last els elast st0 st1 (r_log st0) es Shl Te She Shel R _ _ St (inv_start _ _ b fin ls last els elast st0 st1 (r_log st0) es T Sh Shl Te She Shel single Hs)) as I.
  destruct s as [x|]; [|destruct I]. assert (F : exists f, fin st1 f). { eexists. exists (r_pm (failed root err st1)). split; [apply reordered_refl|reflexivity]. }
  destruct (at_rest _ _ b fin ls last els elast st0 st1 (r_log st0) es Te She Shel x F I Rest) as (_ & _ & _ & (f & (t & Rt & ->) & M) & Pl & _).
  exists x, (failed root err st1), (ending grow trace root t (failed root err st1)). split; auto. split; [econstructor; eauto|]. split; auto.
  rewrite M, app_assoc. etransitivity; [|apply extends_skipn, (extends_ending grow trace root err t st1)]. f_equal. symmetry. exact L.
Qed.
(** If the builder refuses a line or a line is too long, and there is more to come, the run never ends: go test
    is kept waiting for its output to be read, and the page never gets the end of the test. *)
Theorem C87_refused_output_refuted st1 pre tail e : begin_run path asked prefix extra = (st0, root) ->
  consume (builder grow single decode prefix mod_path resolve root) root st0 (map drop_cr pre) = CEof st1 -> Forall (fun l => ~ In newline l) pre -> refused b st1 tail ->
  forall s, steps _ _ b fin (Live (started _ _ single st0 (r_log st0) (written pre tail) e)) s ->
  exists x, s = Live x /\ x_run x = Running /\ forall eh, In (Main eh) (x_got x) -> e_kind (fst eh) <> TestEnd.
Proof.
  intros B C N Rf s St. destruct (consume_runs _ _ _ _ _ C) as (es & R & L). set (P := fun eh : sent_event => e_kind (fst eh) <> TestEnd).
  assert (PB : forall s l s' es, b s l = Built s' es -> Forall P es).
  { unfold b, run_build. intros s' l s2 es2 Q. destruct (builder _ _ _ _ _ _ _ _ _ l) as [h es3| |] eqn:Bq; try discriminate. injection Q as _ <-. apply builder_kinds in Bq. clear -Bq. induction Bq; constructor; auto. }
  assert (PX : forall s l e, b s l = Bad e -> P e).
  { unfold b, run_build. intros s' l e2 Q. destruct (builder _ _ _ _ _ _ _ _ _ l); try discriminate. injection Q as <-. discriminate. }
  assert (F0 : Forall P (r_log st0)). { unfold begin_run in B. destruct (alloc _ _ _) in B. injection B as <- _. cbn. repeat constructor. discriminate. }
  pose proof (stuck_steps _ _ b fin P PB PX pre tail st0 st1 es N R Rf _ _ St (stuck_start _ _ b P pre tail st0 single (r_log st0) e F0)) as I.
  destruct s as [x|]; [|destruct I]. exists x. split; auto. cbn in I. destruct I as (Rn & _ & _ & Pm & _). split; auto. intros eh J. rewrite Forall_forall in Pm. apply (Pm eh). rewrite mains_app. apply in_or_app. left.
  unfold mains. apply in_flat_map. exists (Main eh). split; auto. now left.
Qed.
End C87.
(** Output on stderr may come after the end of the test. *)
Theorem C87_stderr_late_refuted grow trace decode mod_path resolve path asked prefix err extra st0 root line : begin_run path asked prefix extra = (st0, root) -> ~ In newline line -> short line ->
  let b := run_build (builder grow false decode prefix mod_path resolve root) root in
  let fin := run_final grow trace root err in
  exists x y before after, steps _ _ b fin (Live (started _ _ false st0 (r_log st0) [] (written [line] []))) (Live x) /\
    run_ends grow trace false decode mod_path resolve path asked prefix [] err before after /\ x_got x = map Main (r_log after) /\
    steps _ _ b fin (Live x) (Live y) /\ x_got y = x_got x ++ [Plain (drop_cr line)].
Proof.
  intros B N Sh b fin. set (t := r_pm (failed root err st0)).
  destruct (late _ _ b fin st0 (r_log st0) (skipn (length (r_log st0)) (r_log (ending grow trace root t (failed root err st0)))) line) as (x & y & A & G & A2 & G2); auto.
  { exists t. split; [apply reordered_refl|reflexivity]. }
  exists x, y, (failed root err st0), (ending grow trace root t (failed root err st0)). split; auto. split; [|split; auto].
  - econstructor; [exact B|reflexivity|reflexivity|apply reordered_refl|reflexivity].
  - rewrite G. f_equal. apply extends_skipn, extends_ending.
Qed.
(** Cases that meet the hypotheses: a test that prints a line and part of one; a line of JSON that can not be decoded. *)
Example C87_example : exists st0 root st1, begin_run [] [[#"m"; #"a_test.go"; #"TestA"]] [#"m"] 0 = (st0, root) /\
  consume (builder (fun _ n => n) true (fun _ => inr []) [#"m"] #"m" (fun _ _ => None) root) root st0 (lines_of [#"=== RUN TestA"; #"ok"] #"PASS") = CEof st1 /\
  text [#"=== RUN TestA"; #"ok"] #"PASS" /\ Forall short [#"=== RUN TestA"; #"ok"] /\ short #"PASS" /\ length (r_log st1) = 4.
Proof.
  destruct (begin_run [] [[#"m"; #"a_test.go"; #"TestA"]] [#"m"] 0) as [st0 root] eqn:B. exists st0, root.
  destruct (consume (builder (fun _ n => n) true (fun _ => inr []) [#"m"] #"m" (fun _ _ => None) root) root st0 (lines_of [#"=== RUN TestA"; #"ok"] #"PASS")) as [st1|st1|st1] eqn:C.
  2,3: vm_compute in B; injection B as <- <-; vm_compute in C; discriminate C.
  exists st1. split; auto. split; auto. split; [|split; [|split]].
  - split; [repeat constructor|]; intros J; cbn in J; repeat (destruct J as [J|J]; [discriminate J|]); exact J.
  - repeat constructor; apply short_small; cbn; lia.
  - apply short_small; cbn; lia.
  - vm_compute in B. injection B as <- <-. vm_compute in C. injection C as <-. reflexivity.
Qed.
Example C87_refused_example : exists st0 root tail, begin_run [] [[#"m"]] [#"m"] 0 = (st0, root) /\
  refused (run_build (builder (fun _ n => n) false (fun _ => inr #"bad") [#"m"] #"m" (fun _ _ => None) root) root) st0 tail.
Proof.
  destruct (begin_run [] [[#"m"]] [#"m"] 0) as [st0 root] eqn:B. exists st0, root, (#"{x" ++ newline :: repeat "a"%char (M_ExplorerLive.max_token + 1)). split; auto. right.
  exists #"{x", (repeat "a"%char (M_ExplorerLive.max_token + 1)). eexists. split; [reflexivity|]. split; [intros J; cbn in J; repeat (destruct J as [J|J]; [discriminate J|]); exact J|]. split; [apply short_small; cbn; lia|].
  split; [rewrite repeat_length; lia|]. vm_compute in B. injection B as <- <-. reflexivity.
Qed.
