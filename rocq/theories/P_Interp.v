(** Proofs about M_Interp: C09. *)
From Coq Require Import List Arith Bool ZArith Lia.
From Verif Require Import M_Stack M_Interp S_Interp.
Import ListNotations.

Lemma open_app a b : open_handlers (a ++ b) = (open_handlers a + open_handlers b)%Z.
Proof. induction a as [|e a IH]; [reflexivity|]. destruct e; cbn [app open_handlers]; rewrite IH; lia. Qed.

(** ** The depth is always restored *)
Definition keeps_depth (rec : bool -> list stmt -> st -> option (st * bool)) : Prop :=
  forall pk l s s' p, rec pk l s = Some (s', p) -> trapping s' = trapping s.

Lemma run_handler_depth rec pk g id b s s' p : keeps_depth rec ->
  run_handler rec pk g id b s = Some (s', p) -> trapping s' = trapping s.
Proof.
  intros K H. unfold run_handler in H. destruct (rec _ _ _) as [[s1 q]|] eqn:E; [|discriminate].
  injection H as <- <-. apply K in E. simpl. rewrite E. destruct g; reflexivity.
Qed.

Lemma pre_loop_depth rec pk g hs : keeps_depth rec -> forall s n v s' pr n' v',
  pre_loop rec pk g hs s n v = Some (s', pr, n', v') -> trapping s' = trapping s.
Proof.
  intros K. induction hs as [|h r IH]; simpl; intros s n v s' pr n' v' H.
  - now injection H as <- _ _ _.
  - destruct (h_pre h) as [[b stop]|]; [|now apply IH in H].
    destruct (run_handler rec pk g (h_id h) b s) as [[s1 [|]]|] eqn:E; [| |discriminate].
    + injection H as <- _ _ _. eapply run_handler_depth; eauto.
    + apply (run_handler_depth _ _ _ _ _ _ _ _ K) in E.
      destruct stop; [injection H as <- _ _ _; auto|]. apply IH in H. congruence.
Qed.

Lemma run_posts_depth rec pk ts : keeps_depth rec -> forall s s' p,
  run_posts rec pk ts s = Some (s', p) -> trapping s' = trapping s.
Proof.
  intros K. induction ts as [|[g h] r IH]; simpl; intros s s' p H.
  - now injection H as <- _.
  - destruct (h_post h) as [b|]; [|now injection H as <- _].
    destruct (run_handler rec pk g (h_id h) b s) as [[s1 [|]]|] eqn:E; [| |discriminate].
    + injection H as <- _. eapply run_handler_depth; eauto.
    + apply (run_handler_depth _ _ _ _ _ _ _ _ K) in E. apply IH in H. congruence.
Qed.

Lemma call_mock_depth rec pk m s p s' o : keeps_depth rec ->
  call_mock rec pk m s p = Some (s', o) -> trapping s' = trapping s.
Proof.
  intros K H. unfold call_mock in H. destruct m as [[b ok]|]; [|now injection H as <- _].
  destruct (run_handler rec pk false 0 b s) as [[s1 [|]]|] eqn:E; [| |discriminate];
    injection H as <- _; eapply run_handler_depth; eauto.
Qed.

Lemma trap_body_depth P rec pk f s s' o : keeps_depth rec ->
  trap_body P rec pk f s = Some (s', o) -> trapping s' = trapping s.
Proof.
  intros K H. unfold trap_body in H.
  set (starting := match p_trace P f with Some c => _ | None => None end) in H.
  set (s1 := match starting with None => s | Some _ => _ end) in H.
  assert (T1 : trapping s1 = trapping s) by (unfold s1; destruct starting; auto; destruct (cur s) as [[]|]; auto).
  clearbody s1. cbv zeta in H.
  destruct (pre_loop rec pk false (recorders P s1 f) s1 0 None) as [[[[s2 [[|] stop1]] n1] v1]|] eqn:E1; [| |discriminate].
  { injection H as <- _. apply (pre_loop_depth _ _ _ _ K) in E1. congruence. }
  apply (pre_loop_depth _ _ _ _ K) in E1.
  destruct (if stop1 then Some (s2, (false, false), 0, None) else _) as [[[[s3 [[|] stop2]] n2] v2]|] eqn:E2; [| |discriminate].
  { injection H as <- _. destruct stop1; [discriminate|]. apply (pre_loop_depth _ _ _ _ K) in E2. congruence. }
  assert (T3 : trapping s3 = trapping s).
  { destruct stop1; [injection E2 as <- _ _ _; congruence|]. apply (pre_loop_depth _ _ _ _ K) in E2. congruence. }
  clear E1 E2 T1.
  destruct (negb (stop1 || stop2) && _); [apply (call_mock_depth _ _ _ _ _ _ _ K) in H; congruence|].
  destruct (negb _) in H; [destruct (stop1 || stop2); [now injection H as <- _|apply (call_mock_depth _ _ _ _ _ _ _ K) in H; congruence]|].
  destruct (cur s1) as [[k d]|]; [|now injection H as <- _].
  destruct (match starting with Some c => negb (c_sink c) | None => false end).
  { injection H as <- _. destruct starting; simpl; destruct (cur s); simpl; auto. }
  destruct (push_new _ k f 0) as [m' [e old]].
  destruct (stop1 || stop2).
  - injection H as <- _. destruct starting; auto.
  - apply (call_mock_depth _ _ _ _ _ _ _ K) in H. rewrite H. destruct starting; auto.
Qed.

Lemma trap_fn_depth P rec pk f s s' o : keeps_depth rec ->
  trap_fn P rec pk f s = Some (s', o) -> trapping s' = trapping s.
Proof.
  intros K H. unfold trap_fn in H. destruct (trap_body P rec pk f (inc s)) as [[s1 o1]|] eqn:E; [|discriminate].
  injection H as <- _. apply (trap_body_depth _ _ _ _ _ _ _ K) in E. simpl. rewrite E. reflexivity.
Qed.

Lemma post_fn_depth rec pk p s s' r : keeps_depth rec ->
  post_fn rec pk p s = Some (s', r) -> trapping s' = trapping s.
Proof.
  intros K H. unfold post_fn in H. destruct p as [|w ts|ts k e old start].
  - now injection H as <- _.
  - destruct (run_posts rec pk ts _) as [[s1 r1]|] eqn:E; [|discriminate].
    injection H as <- _. apply (run_posts_depth _ _ _ K) in E. destruct w; simpl in *; rewrite E; reflexivity.
  - destruct (run_posts rec pk ts (inc s)) as [[s1 [|]]|] eqn:E; [| |discriminate];
      apply (run_posts_depth _ _ _ K) in E.
    + injection H as <- _. simpl. now rewrite E.
    + destruct start.
      * destruct (export _ _ _ _) as [[[w ev] xs]|]; [|discriminate]. injection H as <- _. simpl. now rewrite E.
      * injection H as <- _. simpl. now rewrite E.
Qed.

Lemma call_fn_depth P rec pk f s s' r : keeps_depth rec ->
  call_fn P rec pk f s = Some (s', r) -> trapping s' = trapping s.
Proof.
  intros K H. unfold call_fn in H. destruct (trap_fn P rec pk f s) as [[s1 [p stop|]]|] eqn:E; [| |discriminate];
    apply (trap_fn_depth _ _ _ _ _ _ _ K) in E.
  - destruct (if stop then Some (s1, false) else _) as [[s2 r2]|] eqn:E2; [|discriminate].
    assert (T2 : trapping s2 = trapping s1).
    { destruct stop; [now injection E2 as <- _|]. apply K in E2. exact E2. }
    destruct (post_fn rec (pk || r2) p s2) as [[s3 r3]|] eqn:E3; [|discriminate].
    injection H as <- _. apply (post_fn_depth _ _ _ _ _ _ K) in E3. congruence.
  - now injection H as <- _.
Qed.

Lemma exec_depth n P : keeps_depth (exec n P).
Proof.
  induction n as [|n IH]; intros pk l s s' p H; [discriminate|]. simpl in H.
  destruct l as [|x r]; [now injection H as <- _|].
  match type of H with match ?a with _ => _ end = _ => destruct a as [[s1 [|]]|] eqn:E; [| |discriminate] end.
  - injection H as <- _. destruct x.
    + eapply call_fn_depth; eauto.
    + now injection E as <-.
    + destruct (exec n P pk b s) as [[]|]; [|discriminate]. discriminate.
    + destruct (exec n P pk b s) as [[s2 p2]|] eqn:E2; [|discriminate].
      destruct (exec n P (pk || p2) fin s2) as [[s3 p3]|] eqn:E3; [|discriminate].
      injection E as <- _. apply IH in E2. apply IH in E3. congruence.
  - apply IH in H. rewrite H. clear H. destruct x.
    + eapply call_fn_depth; eauto.
    + discriminate.
    + destruct (exec n P pk b s) as [[s2 p2]|] eqn:E2; [|discriminate]. injection E as <-. now apply IH in E2.
    + destruct (exec n P pk b s) as [[s2 p2]|] eqn:E2; [|discriminate].
      destruct (exec n P (pk || p2) fin s2) as [[s3 p3]|] eqn:E3; [|discriminate].
      injection E as <- _. apply IH in E2. apply IH in E3. congruence.
Qed.

(** ** General interceptors are not invoked from within handlers *)
Definition ginv (s : st) : Prop := open_handlers (log s) = Z.of_nat (trapping s) /\ guarded (log s).

Definition keeps_ginv (rec : bool -> list stmt -> st -> option (st * bool)) : Prop :=
  forall pk l s s' p, ginv s -> rec pk l s = Some (s', p) -> ginv s'.

Lemma guarded_snoc l e : guarded l -> (forall id, e = EGeneral id -> open_handlers l = 0%Z) -> guarded (l ++ [e]).
Proof.
  intros G E l1 id l2 H. destruct l2 as [|x l2] using rev_ind.
  - apply app_inj_tail in H as [-> ->]. now apply (E id).
  - clear IHl2. change (l1 ++ EGeneral id :: l2 ++ [x]) with (l1 ++ (EGeneral id :: l2) ++ [x]) in H.
    rewrite app_assoc in H. apply app_inj_tail in H as [-> _]. now apply (G l1 id l2).
Qed.

(** Inside trap or a wrapped post, the depth is one more than the open handlers. *)
Definition ginv1 (s : st) : Prop :=
  (0 < Z.of_nat (trapping s) /\ open_handlers (log s) + 1 = Z.of_nat (trapping s))%Z /\ guarded (log s).

Lemma run_handler_ginv rec pk g id b s s' p : keeps_ginv rec -> keeps_depth rec -> ginv1 s ->
  (g = true -> trapping s <= 1) ->
  run_handler rec pk g id b s = Some (s', p) -> ginv1 s' /\ trapping s' = trapping s.
Proof.
  intros KG KD [[N O] G] Hg H. pose proof (run_handler_depth _ _ _ _ _ _ _ _ KD H) as T.
  unfold run_handler in H. destruct (rec _ _ _) as [[s1 q]|] eqn:E; [|discriminate].
  injection H as <- <-. split; auto. apply KG in E.
  - destruct E as [O1 G1]. split; simpl in *.
    + rewrite open_app. simpl. rewrite T in O1. destruct g; simpl in O1; lia.
    + apply guarded_snoc; auto. discriminate.
  - destruct g; split; simpl.
    + rewrite !open_app. simpl. lia.
    + apply guarded_snoc; [|discriminate]. apply guarded_snoc; auto. intros. specialize (Hg eq_refl). lia.
    + rewrite !open_app. simpl. lia.
    + apply guarded_snoc; [|discriminate]. auto.
Qed.

Lemma pre_loop_ginv rec pk g hs : keeps_ginv rec -> keeps_depth rec -> forall s n v s' pr n' v',
  ginv1 s -> (g = true -> hs <> [] -> trapping s <= 1) ->
  pre_loop rec pk g hs s n v = Some (s', pr, n', v') -> ginv1 s' /\ trapping s' = trapping s.
Proof.
  intros KG KD. induction hs as [|h r IH]; simpl; intros s n v s' pr n' v' I Hg H.
  - injection H as <- _ _ _. auto.
  - assert (Hg' : g = true -> trapping s <= 1) by (intros; apply Hg; auto; discriminate).
    destruct (h_pre h) as [[b stop]|]; [|apply IH in H; auto].
    destruct (run_handler rec pk g (h_id h) b s) as [[s1 [|]]|] eqn:E; [| |discriminate];
      destruct (run_handler_ginv _ _ _ _ _ _ _ _ KG KD I Hg' E) as [I1 T1].
    + injection H as <- _ _ _. auto.
    + destruct stop; [injection H as <- _ _ _; auto|]. apply IH in H; auto.
      * destruct H. split; auto. congruence.
      * intros. rewrite T1. auto.
Qed.

Lemma run_posts_ginv rec pk ts : keeps_ginv rec -> keeps_depth rec -> forall s s' p,
  ginv1 s -> ((exists h, In (true, h) ts) -> trapping s <= 1) ->
  run_posts rec pk ts s = Some (s', p) -> ginv1 s' /\ trapping s' = trapping s.
Proof.
  intros KG KD. induction ts as [|[g h] r IH]; simpl; intros s s' p I Hg H.
  - injection H as <- _. auto.
  - destruct (h_post h) as [b|]; [|injection H as <- _; auto].
    destruct (run_handler rec pk g (h_id h) b s) as [[s1 [|]]|] eqn:E; [| |discriminate];
      (edestruct run_handler_ginv as [I1 T1]; [exact KG|exact KD|exact I| |exact E|]; [intros ->; apply Hg; eauto|]).
    + injection H as <- _. auto.
    + apply IH in H; auto.
      * destruct H. split; auto. congruence.
      * intros [h' Ih]. rewrite T1. apply Hg. eauto.
Qed.

Lemma call_mock_ginv rec pk m s p s' o : keeps_ginv rec -> keeps_depth rec -> ginv1 s ->
  call_mock rec pk m s p = Some (s', o) -> ginv1 s' /\ (o = Panicked \/ exists ok, o = Ok p ok).
Proof.
  intros KG KD I H. unfold call_mock in H. destruct m as [[b ok]|].
  - destruct (run_handler rec pk false 0 b s) as [[s1 [|]]|] eqn:E; [| |discriminate];
      (edestruct run_handler_ginv as [I1 T1]; [exact KG|exact KD|exact I| |exact E|]; [discriminate|]);
      injection H as <- <-; eauto.
  - injection H as <- <-. eauto.
Qed.

(** A post function is safe to run at depth [d]. *)
Definition post_ok (p : post) (d : nat) : Prop :=
  match p with
  | PNil => True
  | PRecorder w ts => w = true /\ ((exists h, In (true, h) ts) -> d = 0)
  | PTrace ts _ _ _ _ => (exists h, In (true, h) ts) -> d = 0
  end.

Lemma thunks_of_general n v h : ~ In (true, h) (thunks_of false n v).
Proof.
  unfold thunks_of. destruct v as [x|]; simpl; auto. intros I. apply repeat_spec in I. discriminate.
Qed.

Lemma ginv1_set_cur c s : ginv1 s -> ginv1 (set_cur c s). Proof. auto. Qed.
Lemma ginv1_set_mm c s : ginv1 s -> ginv1 (set_mm c s). Proof. auto. Qed.

Lemma trap_body_ginv P rec pk f s s' o : keeps_ginv rec -> keeps_depth rec ->
  (forall g c, p_trace P g = Some c -> c_sink c = true) ->
  ginv1 s -> trap_body P rec pk f s = Some (s', o) ->
  ginv1 s' /\ (forall p stop, o = Ok p stop -> post_ok p (pred (trapping s))).
Proof.
  intros KG KD NS I H. unfold trap_body in H.
  set (starting := match p_trace P f with Some c => _ | None => None end) in H.
  assert (SS : match starting with Some c => negb (c_sink c) | None => false end = false).
  { unfold starting. destruct (p_trace P f) as [c|] eqn:E; auto. destruct (_ && _); auto. now rewrite (NS _ _ E). }
  set (s1 := match starting with None => s | Some _ => _ end) in H.
  assert (I1 : ginv1 s1 /\ trapping s1 = trapping s) by (unfold s1; destruct starting; auto; destruct (cur s) as [[]|]; auto).
  destruct I1 as [I1 T1]. clearbody s1. cbv zeta in H.
  destruct (pre_loop rec pk false (recorders P s1 f) s1 0 None) as [[[[s2 [[|] stop1]] n1] v1]|] eqn:E1; [| |discriminate];
    (edestruct pre_loop_ginv as [I2 T2]; [exact KG|exact KD|exact I1| |exact E1|]; [discriminate|]).
  { injection H as <- <-. split; auto. discriminate. }
  set (ints := if trapping s <=? 1 then interceptors P s1 else []) in H.
  assert (E2' : exists s3 pn stop2 n2 v2,
     (if stop1 then Some (s2, (false, false), 0, None) else pre_loop rec pk true ints s2 0 None) = Some (s3, (pn, stop2), n2, v2)
     /\ ginv1 s3 /\ (trapping s <= 1 \/ thunks_of true n2 v2 = [])).
  { destruct stop1; [exists s2, false, false, 0, None; auto|].
    destruct (pre_loop rec pk true ints s2 0 None) as [[[[s3 [pn stop2]] n2] v2]|] eqn:E2; [|discriminate].
    exists s3, pn, stop2, n2, v2. split; auto.
    destruct (trapping s <=? 1) eqn:L.
    - apply Nat.leb_le in L.
      edestruct pre_loop_ginv as [I3 T3]; [exact KG|exact KD|exact I2| |exact E2|]; [intros; lia|]. auto.
    - unfold ints in E2. simpl in E2. injection E2 as <- _ _ <- <-. auto. }
  destruct E2' as (s3 & pn & stop2 & n2 & v2 & E2 & I3 & L). rewrite E2 in H. clear E2.
  destruct pn; [injection H as <- <-; split; auto; discriminate|].
  set (ts := rev (thunks_of false n1 v1 ++ thunks_of true n2 v2)) in H.
  assert (TS : (exists h, In (true, h) ts) -> pred (trapping s) = 0).
  { intros [h Ih]. unfold ts in Ih. apply in_rev in Ih. apply in_app_or in Ih as [Ih|Ih].
    - now apply thunks_of_general in Ih.
    - destruct L as [L|L]; [lia|]. now rewrite L in Ih. }
  assert (WP : post_ok (wrap_posts ts) (pred (trapping s))).
  { unfold wrap_posts. destruct ts; simpl; auto. }
  clearbody ts. clear E1 L.
  destruct (negb (stop1 || stop2) && _).
  { destruct (call_mock_ginv _ _ _ _ _ _ _ KG KD I3 H) as [I4 [->|[ok ->]]]; split; auto; try discriminate.
    intros p stop E. injection E as <- _. auto. }
  destruct (negb _) in H.
  { destruct (stop1 || stop2).
    - injection H as <- <-. split; auto. intros p stop E. injection E as <- _. auto.
    - destruct (call_mock_ginv _ _ _ _ _ _ _ KG KD I3 H) as [I4 [->|[ok ->]]]; split; auto; try discriminate.
      intros p stop E. injection E as <- _. auto. }
  destruct (cur s1) as [[k d]|].
  2:{ injection H as <- <-. split; auto. intros p stop E. injection E as <- _. auto. }
  rewrite SS in H.
  destruct (push_new _ k f 0) as [m' [e old]].
  set (s5 := set_mm m' _) in H.
  assert (I5 : ginv1 s5) by (unfold s5; destruct starting; exact I3).
  destruct (stop1 || stop2).
  - injection H as <- <-. split; auto. intros p stop E. injection E as <- _. exact TS.
  - destruct (call_mock_ginv _ _ _ _ _ _ _ KG KD I5 H) as [I6 [->|[ok ->]]]; split; auto; try discriminate.
    intros p stop E. injection E as <- _. exact TS.
Qed.

Lemma inc_ginv s : ginv s -> ginv1 (inc s).
Proof. intros [O G]. split; simpl; auto. lia. Qed.
Lemma dec_ginv s : ginv1 s -> trapping s <> 0 -> ginv (dec s).
Proof. intros [[_ O] G] N. split; simpl; auto. lia. Qed.

Lemma call_fn_ginv P rec pk f s s' r : keeps_ginv rec -> keeps_depth rec ->
  (forall g c, p_trace P g = Some c -> c_sink c = true) ->
  ginv s -> call_fn P rec pk f s = Some (s', r) -> ginv s'.
Proof.
  intros KG KD NS I H. unfold call_fn, trap_fn in H.
  destruct (trap_body P rec pk f (inc s)) as [[s0 o]|] eqn:E; [|discriminate].
  destruct (trap_body_ginv _ _ _ _ _ _ _ KG KD NS (inc_ginv _ I) E) as [I0 PO].
  pose proof (trap_body_depth _ _ _ _ _ _ _ KD E) as T0. simpl in T0, PO.
  assert (I1 : ginv (dec s0)) by (apply dec_ginv; auto; lia).
  destruct o as [p stop|]; [|injection H as <- _; auto].
  specialize (PO p stop eq_refl).
  destruct (if stop then Some (dec s0, false) else _) as [[s2 r2]|] eqn:E2; [|discriminate].
  assert (I2 : ginv s2 /\ trapping s2 = trapping s).
  { destruct stop.
    - injection E2 as <- _. split; auto. simpl. now rewrite T0.
    - split; [apply KG in E2; auto|].
      + destruct I1 as [O G]. split; simpl in *.
        * rewrite open_app. simpl. lia.
        * apply guarded_snoc; auto. discriminate.
      + apply KD in E2. rewrite E2. simpl. now rewrite T0. }
  destruct I2 as [I2 T2]. rewrite <- T2 in PO. clear E E2.
  destruct (post_fn rec (pk || r2) p s2) as [[s3 r3]|] eqn:E3; [|discriminate].
  injection H as <- _. unfold post_fn in E3. destruct p as [|w ts|ts k e old start].
  - now injection E3 as <- _.
  - destruct PO as [-> PO]. destruct (run_posts rec (pk || r2) ts (inc s2)) as [[s4 r4]|] eqn:E4; [|discriminate].
    edestruct run_posts_ginv as [I4 T4]; [exact KG|exact KD|exact (inc_ginv _ I2)| |exact E4|].
    { intros X. apply PO in X. simpl. lia. }
    injection E3 as <- _. apply dec_ginv; auto. rewrite T4. simpl. lia.
  - destruct (run_posts rec (pk || r2) ts (inc s2)) as [[s4 r4]|] eqn:E4; [|discriminate].
    edestruct run_posts_ginv as [I4 T4]; [exact KG|exact KD|exact (inc_ginv _ I2)| |exact E4|].
    { intros X. apply PO in X. simpl. lia. }
    assert (N4 : trapping s4 <> 0) by (rewrite T4; simpl; lia).
    destruct r4; [injection E3 as <- _; apply dec_ginv; auto|].
    destruct start.
    + destruct (export _ _ _ _) as [[[w ev] xs]|]; [|discriminate]. injection E3 as <- _.
      apply dec_ginv; auto. destruct I4 as [[N O] G]. split; simpl.
      * rewrite open_app. simpl. lia.
      * apply guarded_snoc; auto. discriminate.
    + injection E3 as <- _. apply dec_ginv; auto.
Qed.

Lemma exec_ginv n P : (forall g c, p_trace P g = Some c -> c_sink c = true) -> keeps_ginv (exec n P).
Proof.
  intros NS. induction n as [|n IH]; intros pk l s s' p I H; [discriminate|]. simpl in H.
  destruct l as [|x r]; [now injection H as <- _|].
  match type of H with match ?a with _ => _ end = _ => destruct a as [[s1 q]|] eqn:E; [|discriminate] end.
  assert (I1 : ginv s1).
  { destruct x.
    - eapply call_fn_ginv; eauto. apply exec_depth.
    - now injection E as <- _.
    - destruct (exec n P pk b s) as [[s2 p2]|] eqn:E2; [|discriminate]. injection E as <- _. eapply IH; eauto.
    - destruct (exec n P pk b s) as [[s2 p2]|] eqn:E2; [|discriminate].
      destruct (exec n P (pk || p2) fin s2) as [[s3 p3]|] eqn:E3; [|discriminate].
      injection E as <- _. eapply IH; [|exact E3]. eapply IH; eauto. }
  destruct q; [now injection H as <- _|]. eapply IH; eauto.
Qed.

Lemma exec_guarded n P with_local pk l s' p :
  (forall g c, p_trace P g = Some c -> c_sink c = true) ->
  exec n P pk l (init_st with_local) = Some (s', p) -> guarded (log s').
Proof.
  intros NS H. eapply (exec_ginv n P NS) in H.
  - apply H.
  - destruct with_local; split; simpl; auto; intros [|? ?] ? ? E; discriminate.
Qed.
