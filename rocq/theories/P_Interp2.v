(** Proofs about M_Interp, continued: C11. *)
From Coq Require Import List Arith Bool ZArith Lia.
From Verif Require Import M_Stack S_Stack P_Stack P_Stack2 P_Stack3 M_Interp S_Interp P_Interp.
Import ListNotations.

(** ** Code running inside a handler leaves no trace *)
Definition inert (s s' : st) : Prop :=
  mm s' = mm s /\ cur s' = cur s /\ exports (log s') = exports (log s) /\ trapping s' = trapping s.

Lemma inert_refl s : inert s s. Proof. repeat split. Qed.
Lemma inert_trans a b c : inert a b -> inert b c -> inert a c.
Proof. intros (A & B & C & D) (A' & B' & C' & D'). repeat split; congruence. Qed.

Lemma exports_app a b : exports (a ++ b) = exports a ++ exports b.
Proof. induction a as [|e a IH]; auto. destruct e; simpl; auto. now rewrite IH. Qed.

Lemma inert_emit e s : (forall xs, e <> EExport xs) -> inert s (emit e s).
Proof.
  intros N. repeat split. simpl. rewrite exports_app. destruct e; simpl; try apply app_nil_r. now destruct (N xs).
Qed.

Definition inert_rec (rec : bool -> list stmt -> st -> option (st * bool)) : Prop :=
  forall pk l s s' p, 0 < trapping s -> rec pk l s = Some (s', p) -> inert s s'.
Definition np (rec : bool -> list stmt -> st -> option (st * bool)) (b : list stmt) : Prop :=
  forall pk s s' p, rec pk b s = Some (s', p) -> p = false.

Lemma run_handler_inert rec pk g id b s s' p : inert_rec rec -> np rec b -> 0 < trapping s ->
  run_handler rec pk g id b s = Some (s', p) -> inert s s' /\ p = false.
Proof.
  intros K N T H. unfold run_handler in H. destruct (rec _ _ _) as [[s1 q]|] eqn:E; [|discriminate].
  injection H as <- <-. split; [|eapply N; eauto].
  apply K in E; [|destruct g; exact T].
  apply inert_trans with s1; [|apply inert_emit; discriminate].
  eapply inert_trans; [|exact E].
  eapply inert_trans; [|apply inert_emit; discriminate].
  destruct g; [apply inert_emit; discriminate|apply inert_refl].
Qed.

Definition observes' rec (h : handler) : Prop :=
  (forall b stop, h_pre h = Some (b, stop) -> stop = false /\ np rec b) /\
  (forall b, h_post h = Some b -> np rec b).

Lemma pre_loop_inert rec pk g hs : inert_rec rec -> (forall h, In h hs -> observes' rec h) ->
  forall s n v r, 0 < trapping s -> pre_loop rec pk g hs s n v = Some r ->
  exists s' n' v', r = (s', (false, false), n', v') /\ inert s s' /\
    (v' = v \/ exists h, v' = Some h /\ In h hs) /\
    ((forall h, In h hs -> h_post h = None) -> n' = n).
Proof.
  intros K. induction hs as [|h hs IH]; simpl; intros O s n v r T H.
  - injection H as <-. exists s, n, v. repeat split; auto.
  - destruct (O h (or_introl eq_refl)) as [Opre _].
    destruct (h_pre h) as [[b stop]|].
    + destruct (Opre b stop eq_refl) as [-> N].
      destruct (run_handler rec pk g (h_id h) b s) as [[s1 q]|] eqn:E; [|discriminate].
      destruct (run_handler_inert _ _ _ _ _ _ _ _ K N T E) as [I1 ->].
      apply IH in H; [|now intros; apply O; right|destruct I1 as (_ & _ & _ & ->); auto].
      destruct H as (s' & n' & v' & -> & I & V & Z). exists s', n', v'. split; auto.
      split; [eapply inert_trans; eauto|]. split.
      * destruct V as [->|(h' & -> & Ih)]; right; eauto.
      * intros A. rewrite Z by (intros; apply A; now right). now rewrite (A h (or_introl eq_refl)).
    + apply IH in H; [|now intros; apply O; right|auto].
      destruct H as (s' & n' & v' & -> & I & V & Z). exists s', n', v'. split; auto.
      split; auto. split.
      * destruct V as [->|(h' & -> & Ih)]; right; eauto.
      * intros A. rewrite Z by (intros; apply A; now right). now rewrite (A h (or_introl eq_refl)).
Qed.

(** Post closures that can be run: each has a post that does not panic. *)
Definition good_thunks rec (ts : list (bool * handler)) : Prop :=
  forall g h, In (g, h) ts -> exists b, h_post h = Some b /\ np rec b.

Lemma thunks_good rec g hs n v :
  (forall h, In h hs -> observes' rec h) -> same_posts hs ->
  (v = None \/ exists h, v = Some h /\ In h hs) ->
  ((forall h, In h hs -> h_post h = None) -> n = 0) -> good_thunks rec (thunks_of g n v).
Proof.
  intros O SP V Z g' h' I. unfold thunks_of in I. destruct v as [h|]; [|destruct I].
  apply repeat_spec in I as E. injection E as -> ->.
  destruct V as [|(h2 & E & Ih)]; [discriminate|]. injection E as <-.
  destruct SP as [SP|SP].
  - destruct (h_post h) as [b|] eqn:Eb; [|now destruct (SP h Ih)]. exists b. split; auto. now apply (O h Ih).
  - rewrite (Z SP) in I. destruct I.
Qed.

Lemma run_posts_inert rec pk ts : inert_rec rec -> good_thunks rec ts -> forall s s' p, 0 < trapping s ->
  run_posts rec pk ts s = Some (s', p) -> inert s s' /\ p = false.
Proof.
  intros K. induction ts as [|[g h] r IH]; simpl; intros G s s' p T H.
  - injection H as <- <-. split; auto. apply inert_refl.
  - destruct (G g h (or_introl eq_refl)) as (b & Eb & N). rewrite Eb in H.
    destruct (run_handler rec pk g (h_id h) b s) as [[s1 q]|] eqn:E; [|discriminate].
    destruct (run_handler_inert _ _ _ _ _ _ _ _ K N T E) as [I1 ->].
    apply IH in H; [|intros g' h' I'; eapply G; right; eauto|destruct I1 as (_ & _ & _ & ->); auto].
    destruct H. split; auto. eapply inert_trans; eauto.
Qed.

Lemma call_mock_inert rec pk m s p s' o : inert_rec rec ->
  (forall b ok, m = Some (b, ok) -> np rec b) -> 0 < trapping s ->
  call_mock rec pk m s p = Some (s', o) ->
  inert s s' /\ o = Ok p (match m with Some (_, ok) => ok | None => false end).
Proof.
  intros K N T H. unfold call_mock in H. destruct m as [[b ok]|].
  - destruct (run_handler rec pk false 0 b s) as [[s1 q]|] eqn:E; [|discriminate].
    destruct (run_handler_inert _ _ _ _ _ _ _ _ K (N _ _ eq_refl) T E) as [I1 ->].
    injection H as <- <-. auto.
  - injection H as <- <-. split; auto. apply inert_refl.
Qed.

(** The hypotheses on the handlers, relative to the interpreter one level down. *)
Record benign' (P : prog) rec : Prop := {
  b_rec' : forall s f h, In h (recorders P s f) -> observes' rec h;
  b_int' : forall s h, In h (interceptors P s) -> observes' rec h;
  b_rec_posts' : forall s f, same_posts (recorders P s f);
  b_int_posts' : forall s, same_posts (interceptors P s);
  b_mock' : forall s f b ok, the_mock P s f = Some (b, ok) -> np rec b
}.

Lemma same_posts_tail a b : same_posts (a ++ b) -> same_posts b.
Proof. intros [H|H]; [left|right]; intros h I; apply H, in_or_app; now right. Qed.

Lemma benign_rec P n : benign P -> benign' P (exec n P).
Proof.
  intros [R I RP IP M].
  assert (O : forall h, observes P h -> observes' (exec n P) h).
  { intros h [A B]. split.
    - intros b stop E. destruct (A b stop E) as [-> N]. split; auto. intros pk s s' p H. eapply N; eauto.
    - intros b E pk s s' p H. eapply (B b E); eauto. }
  split.
  - intros s f h Ih. apply O, (R f). unfold recorders in Ih. destruct (local s); auto. apply in_or_app. now right.
  - intros s h Ih. apply O, I. unfold interceptors in Ih. destruct (local s); auto. apply in_or_app. now right.
  - intros s f. unfold recorders. destruct (local s); auto. eapply same_posts_tail; eauto.
  - intros s. unfold interceptors. destruct (local s); auto. eapply same_posts_tail; eauto.
  - intros s f b ok E pk s0 s' p H. unfold the_mock in E.
    assert (X : p_lmock P f = Some (b, ok) \/ p_gmock P f = Some (b, ok)).
    { destruct (local s); [|auto]. destruct (p_lmock P f); auto. }
    eapply (M f b ok X); eauto.
Qed.

(** ** One trap, in tracing state (or inside a handler) *)

(** The state after trap.go:82-131. *)
Definition start_of (P : prog) (f : nat) (s : st) : option cfg :=
  match p_trace P f with
  | Some c => if (trapping s <=? 1) && negb (match cur s with Some (_, d) => d_tracing d | None => false end)
              then Some c else None
  | None => None
  end.
Definition start_st (P : prog) (f : nat) (s : st) : st :=
  match start_of P f s with
  | None => s
  | Some _ =>
      match cur s with
      | None => St (trapping s) (Some (length (stacks (mm s)), SData true (fun _ => true) false))
                   (Mem (heap (mm s)) (stacks (mm s) ++ [new_stack])) (log s)
      | Some (k, d) => set_cur (Some (k, SData true (d_filter d) (d_local d))) s
      end
  end.

(** The handlers run, nothing is replaced; what follows (trap.go:211-456). *)
Lemma trap_body_inv P rec pk f s s' o : inert_rec rec -> benign' P rec -> 0 < trapping s ->
  (forall c, start_of P f s = Some c -> c_sink c = true) ->
  trap_body P rec pk f s = Some (s', o) ->
  exists s3 ts, inert (start_st P f s) s3 /\ good_thunks rec ts /\
      ( (* not traced *)
     ((1 < trapping s \/ (start_of P f s = None /\ forall k d, cur s = Some (k, d) -> d_tracing d = true -> d_filter d f = false) \/
       (exists k d, cur s = Some (k, d) /\ d_filter d f = false)) /\
      inert s3 s' /\ o = Ok (wrap_posts ts) (match the_mock P (start_st P f s) f with Some (_, ok) => ok | None => false end))
   \/
     (exists k d, cur (start_st P f s) = Some (k, d) /\ d_tracing d = true /\ d_filter d f = true /\ trapping s <= 1 /\
      exists m' e old, push_new (mm s3) k f 0 = (m', (e, old)) /\
      let s4 := match start_of P f s with
                 | Some c => set_cur (Some (k, SData (d_tracing d) (c_filter c) (d_local d))) s3
                 | None => s3
                 end in
       inert (set_mm m' s4) s' /\
      o = Ok (PTrace ts k e old (option_map c_sink (start_of P f s)))
              (match the_mock P (start_st P f s) f with Some (_, ok) => ok | None => false end))).
Proof.
  intros K B T NS H. unfold trap_body in H. fold (start_of P f s) in H.
  assert (SS : match start_of P f s with Some c => negb (c_sink c) | None => false end = false).
  { destruct (start_of P f s) as [c|] eqn:E; auto. now rewrite (NS c eq_refl). }
  rewrite SS in H. clear SS. cbv zeta in H. fold (start_st P f s) in H.
  assert (T1 : trapping (start_st P f s) = trapping s).
  { unfold start_st. destruct (start_of P f s); auto. destruct (cur s) as [[]|]; auto. }
  assert (ST : start_of P f s <> None -> trapping s <= 1).
  { unfold start_of. destruct (p_trace P f); [|tauto]. destruct (trapping s <=? 1) eqn:L; [|tauto]. intros _. now apply Nat.leb_le. }
  assert (C1 : exists b k d, match start_of P f s with Some _ => true | None => match cur s with Some (_, d) => d_tracing d | None => false end end = b /\
      (b = true -> cur (start_st P f s) = Some (k, d) /\ d_tracing d = true) /\
      (b = false -> start_of P f s = None /\ forall k d, cur s = Some (k, d) -> d_tracing d = false)).
  { unfold start_st. destruct (start_of P f s).
    - destruct (cur s) as [[k d]|]; eexists true, _, _; (split; [reflexivity|]); split; try discriminate; intros _; split; try reflexivity; simpl; auto.
    - destruct (cur s) as [[k d]|].
      + exists (d_tracing d), k, d. split; auto. split; auto. intros E. split; auto. intros k0 d0 X. now injection X as <- <-.
      + exists false, 0, (SData false (fun _ => true) false). split; auto. split; [discriminate|]. intros _. split; auto. discriminate. }
  destruct C1 as (tr & k1 & d1 & TR & C1 & C1').
  rewrite TR in H.
  assert (CF : cur (start_st P f s) = Some (k1, d1) -> d_filter d1 f = false -> start_of P f s <> None ->
     exists k d, cur s = Some (k, d) /\ d_filter d f = false).
  { unfold start_st. intros Hc Hf N. destruct (start_of P f s); [|tauto]. destruct (cur s) as [[k d]|].
    - simpl in Hc. injection Hc as <- <-. simpl in Hf. eauto.
    - simpl in Hc. injection Hc as <- <-. discriminate Hf. }
  assert (CN : start_of P f s = None -> cur (start_st P f s) = cur s).
  { unfold start_st. now intros ->. }
  set (s1 := start_st P f s) in *. clearbody s1.
  destruct (pre_loop rec pk false (recorders P s1 f) s1 0 None) as [r1|] eqn:E1; [|discriminate].
  assert (T1' : 0 < trapping s1) by lia.
  destruct (pre_loop_inert _ _ _ _ K (b_rec' _ _ B s1 f) _ _ _ _ T1' E1) as (s2 & n1 & v1 & -> & I1 & V1 & Z1).
  set (ints := if trapping s <=? 1 then interceptors P s1 else []) in H.
  destruct (pre_loop rec pk true ints s2 0 None) as [r2|] eqn:E2; [|discriminate].
  assert (T2 : 0 < trapping s2) by (destruct I1 as (_ & _ & _ & ->); auto).
  assert (O2 : forall h, In h ints -> observes' rec h)
    by (unfold ints; intros h Ih; destruct (trapping s <=? 1); [|destruct Ih]; eapply (b_int' _ _ B s1); eauto).
  destruct (pre_loop_inert _ _ _ _ K O2 _ _ _ _ T2 E2) as (s3 & n2 & v2 & -> & I2 & V2 & Z2).
  set (ts := rev (thunks_of false n1 v1 ++ thunks_of true n2 v2)) in H.
  exists s3, ts.
  assert (GT : good_thunks rec ts).
  { intros g h Ih. apply in_rev in Ih. apply in_app_or in Ih as [Ih|Ih].
    - apply (thunks_good rec false (recorders P s1 f) n1 v1) in Ih; auto.
      + apply (b_rec' _ _ B).
      + apply (b_rec_posts' _ _ B).
    - apply (thunks_good rec true ints n2 v2) in Ih; auto.
      unfold ints. destruct (trapping s <=? 1); [apply (b_int_posts' _ _ B)|]. left. intros ? []. }
  split; [eapply inert_trans; eauto|]. split; [exact GT|].
  assert (T3 : 0 < trapping s3) by (destruct I2 as (_ & _ & _ & ->); auto).
  clearbody ts. simpl in H.
  assert (MK : forall s m p s' o, m = the_mock P s1 f -> 0 < trapping s -> call_mock rec pk m s p = Some (s', o) ->
     inert s s' /\ o = Ok p (match m with Some (_, ok) => ok | None => false end)).
  { intros. eapply call_mock_inert; eauto. intros. subst m. eapply (b_mock' _ _ B); eauto. }
  destruct (1 <? trapping s) eqn:L.
  { left. apply Nat.ltb_lt in L. destruct (MK _ _ _ _ _ eq_refl T3 H). auto. }
  apply Nat.ltb_ge in L.
  destruct tr.
  - destruct (C1 eq_refl) as [CC DD]. rewrite CC in H. simpl in H.
    destruct (d_filter d1 f) eqn:Ef; simpl in H.
    + right. exists k1, d1. split; [exact CC|]. split; [exact DD|]. split; [exact Ef|]. split; [exact L|].
      set (s4 := match start_of P f s with Some c => _ | None => s3 end) in *.
      assert (ME : mm s4 = mm s3) by (unfold s4; destruct (start_of P f s); auto).
      rewrite ME in H. destruct (push_new (mm s3) k1 f 0) as [m' [e old]].
      exists m', e, old. split; [reflexivity|]. cbv zeta.
      apply MK in H; auto. unfold s4. destruct (start_of P f s); exact T3.
    + left. destruct (MK _ _ _ _ _ eq_refl T3 H) as [X Y]. split; [|split; auto].
      destruct (start_of P f s) eqn:SO.
      * right. right. apply CF; auto. discriminate.
      * right. left. split; auto. intros k d Hc _. rewrite <- (CN eq_refl), CC in Hc. now injection Hc as <- <-.
  - simpl in H. destruct (C1' eq_refl) as [SN CD]. left.
    destruct (MK _ _ _ _ _ eq_refl T3 H) as [X Y]. split; [|split; auto].
    right. left. split; auto. intros k d Hc Hd. rewrite (CD k d Hc) in Hd. discriminate.
Qed.

Lemma wrap_posts_inert rec pk ts s s' r : inert_rec rec -> good_thunks rec ts ->
  post_fn rec pk (wrap_posts ts) s = Some (s', r) -> inert s s' /\ r = false.
Proof.
  intros K G H. unfold wrap_posts in H. destruct ts as [|x ts].
  - injection H as <- <-. split; auto. apply inert_refl.
  - cbn [post_fn] in H. destruct (run_posts rec pk (x :: ts) (inc s)) as [[s1 r1]|] eqn:E; [|discriminate].
    injection H as <- <-. destruct (run_posts_inert _ _ _ K G _ _ _ (Nat.lt_0_succ _ : 0 < trapping (inc s)) E) as [(A & B & C & D) ->].
    split; auto. repeat split; simpl; auto. rewrite D. reflexivity.
Qed.

Lemma start_of_deep P f s : 0 < trapping s -> start_of P f (inc s) = None.
Proof.
  intros T. unfold start_of. destruct (p_trace P f); auto. simpl. destruct (trapping s); [lia|]. reflexivity.
Qed.

Lemma start_st_none P f s : start_of P f s = None -> start_st P f s = s.
Proof. unfold start_st. now intros ->. Qed.

Lemma inert_dec_inc s s' : inert (inc s) s' -> inert s (dec s').
Proof. intros (A & B & C & D). repeat split; simpl; auto. rewrite D. reflexivity. Qed.

Lemma call_fn_inert P rec pk f s s' p : inert_rec rec -> benign' P rec -> 0 < trapping s ->
  call_fn P rec pk f s = Some (s', p) -> inert s s'.
Proof.
  intros K B T H. unfold call_fn, trap_fn in H.
  destruct (trap_body P rec pk f (inc s)) as [[s1 o]|] eqn:E; [|discriminate].
  pose proof (start_of_deep P f s T) as SN.
  apply trap_body_inv in E; auto; [|simpl; lia|rewrite SN; discriminate].
  rewrite (start_st_none _ _ _ SN) in E. destruct E as (s3 & ts & I3 & G & [(_ & I & ->)|(k & d & _ & _ & _ & L & _)]);
    [|simpl in L; lia].
  assert (I1 : inert s (dec s1)) by (apply inert_dec_inc; eapply inert_trans; eauto).
  set (stop := match the_mock P (inc s) f with Some _ => _ | None => false end) in H.
  destruct (if stop then Some (dec s1, false) else _) as [[s2 r2]|] eqn:E2; [|discriminate].
  assert (I2 : inert s s2).
  { destruct stop; [injection E2 as <- _; auto|]. apply K in E2.
    - eapply inert_trans; [exact I1|]. eapply inert_trans; [|exact E2]. apply inert_emit. discriminate.
    - destruct I1 as (_ & _ & _ & D). cbn [trapping emit]. now rewrite D. }
  destruct (post_fn rec (pk || r2) (wrap_posts ts) s2) as [[s4 r4]|] eqn:E4; [|discriminate].
  injection H as <- _. apply wrap_posts_inert in E4 as [I4 _]; auto. eapply inert_trans; eauto.
Qed.

Lemma exec_inert n P : benign P -> inert_rec (exec n P).
Proof.
  intros B. induction n as [|n IH]; intros pk l s s' p T H; [discriminate|]. simpl in H.
  destruct l as [|x r]; [injection H as <- _; apply inert_refl|].
  match type of H with match ?a with _ => _ end = _ => destruct a as [[s1 q]|] eqn:E; [|discriminate] end.
  assert (I1 : inert s s1).
  { destruct x.
    - eapply call_fn_inert; eauto. now apply benign_rec.
    - injection E as <- _. apply inert_refl.
    - destruct (exec n P pk b s) as [[s2 p2]|] eqn:E2; [|discriminate]. injection E as <- _. eapply IH; eauto.
    - destruct (exec n P pk b s) as [[s2 p2]|] eqn:E2; [|discriminate].
      destruct (exec n P (pk || p2) fin s2) as [[s3 p3]|] eqn:E3; [|discriminate].
      injection E as <- _. apply IH in E2; auto. apply IH in E3; [eapply inert_trans; eauto|].
      destruct E2 as (_ & _ & _ & ->). auto. }
  destruct q; [now injection H as <- _|]. apply IH in H; [eapply inert_trans; eauto|].
  destruct I1 as (_ & _ & _ & ->). auto.
Qed.

(** ** Code running directly under a traced call *)
Fixpoint vt (t : ctree) : vtree := match t with Call f p ch => V f 0 true (Some (0, p)) None (map vt ch) end.
Fixpoint csize (t : ctree) : nat := match t with Call _ _ ch => S (fold_right (fun c n => csize c + n) 0 ch) end.
Definition csizes (ts : list ctree) : nat := fold_right (fun c n => csize c + n) 0 ts.
Lemma csizes_app a b : csizes (a ++ b) = csizes a + csizes b.
Proof. induction a; simpl; auto. lia. Qed.

(** From s to s', exactly the calls [ts] were added below [t]. *)
Record grows (k : sid) (t : ptr) (s s' : st) (ts : list ctree) : Prop := {
  gr_cur : cur s' = cur s;
  gr_exports : exports (log s') = exports (log s);
  gr_trapping : trapping s' = trapping s;
  gr_stacks : length (stacks (mm s')) = length (stacks (mm s));
  gr_top : s_top (get_stack (mm s') k) = s_top (get_stack (mm s) k);
  gr_roots : s_roots (get_stack (mm s') k) = s_roots (get_stack (mm s) k);
  gr_len : length (heap (mm s)) + csizes ts <= length (heap (mm s'));
  gr_old : forall p, p < length (heap (mm s)) -> p <> t -> get (heap (mm s')) p = get (heap (mm s)) p;
  gr_new : forall p c, length (heap (mm s)) <= p -> In c (P_Stack.ch (heap (mm s')) p) ->
             length (heap (mm s)) <= c < length (heap (mm s'));
  gr_cs : exists cs,
    get (heap (mm s')) t = set_children (P_Stack.ch (heap (mm s)) t ++ cs) (get (heap (mm s)) t) /\
    (forall c, In c cs -> length (heap (mm s)) <= c < length (heap (mm s'))) /\
    Forall2 (repr (heap (mm s'))) cs (map vt ts)
}.

Lemma grows_inert k t s s' : inert s s' -> grows k t s s' [].
Proof.
  intros (A & B & C & D). split; auto; rewrite ?A; auto.
  - simpl. lia.
  - intros p c L I. rewrite ch_out in I by auto. destruct I.
  - exists []. rewrite app_nil_r. split; [|split; [|constructor]].
    + unfold P_Stack.ch, set_children. now destruct (get (heap (mm s)) t).
    + intros c [].
Qed.

Lemma grows_trans k t s s1 s2 ts1 ts2 : t < length (heap (mm s)) ->
  grows k t s s1 ts1 -> grows k t s1 s2 ts2 -> grows k t s s2 (ts1 ++ ts2).
Proof.
  intros Lt [A1 B1 C1 D1 E1 F1 G1 H1 I1 (cs1 & J1 & K1 & L1)] [A2 B2 C2 D2 E2 F2 G2 H2 I2 (cs2 & J2 & K2 & L2)].
  split; try congruence.
  - rewrite csizes_app. lia.
  - intros p Lp N. rewrite H2 by lia. auto.
  - intros p c Lp Ic. destruct (Nat.lt_ge_cases p (length (heap (mm s1)))) as [L|L].
    + unfold P_Stack.ch in Ic. rewrite H2 in Ic by lia. apply I1 in Ic; auto. lia.
    + apply I2 in Ic; auto. lia.
  - exists (cs1 ++ cs2). split; [|split].
    + rewrite J2. unfold P_Stack.ch. rewrite J1. simpl. now rewrite app_assoc.
    + intros c Ic. apply in_app_or in Ic as [Ic|Ic]; [apply K1 in Ic|apply K2 in Ic]; lia.
    + rewrite map_app. apply Forall2_app; auto.
      assert (Q : Forall (fun c => length (heap (mm s)) <= c < length (heap (mm s1))) cs1) by now apply Forall_forall.
      clear -L1 Q I1 H2 Lt G2. induction L1 as [|c v cs vs R F IH]; [constructor|]. inversion Q; subst.
      constructor; auto.
      apply repr_frame with (h := heap (mm s1)) (Q := fun c => length (heap (mm s)) <= c < length (heap (mm s1))); auto.
      * intros q Qq Lq. cbv beta in Qq. split; [lia|]. apply H2; lia.
      * intros q c' Qq Lq Ic. cbv beta in Qq. apply (I1 q c'); [lia|exact Ic].
Qed.

(** A traced call: push, body, finish. *)
Lemma grows_call k t s s1 s2 s3 f ts pn :
  k < length (stacks (mm s)) -> t < length (heap (mm s)) -> s_top (get_stack (mm s) k) = Some t ->
  mm s1 = fst (push_new (mm s) k f 0) -> grows k (length (heap (mm s))) s1 s2 ts ->
  mm s3 = finish (mm s2) k (length (heap (mm s))) (Some t) false 0 pn ->
  cur s1 = cur s -> exports (log s1) = exports (log s) ->
  cur s3 = cur s2 -> exports (log s3) = exports (log s2) -> trapping s3 = trapping s ->
  grows k t s s3 [Call f pn ts].
Proof.
  intros Lk Lt Top E1 G E3 Cu1 Ex1 Cu3 Ex3 Tr.
  unfold push_new in E1. rewrite Top in E1. cbn [fst] in E1.
  set (e := Entry _ _ f 0 false None None []) in E1. fold (attach (heap (mm s)) t e) in E1.
  destruct G as [A B C D E F G H I (cs & J & K & L)].
  set (h := heap (mm s)) in *.
  assert (HH : heap (mm s1) = attach h t e) by (rewrite E1; reflexivity).
  rewrite HH in G, H, I, J, K. rewrite attach_length in G. rewrite get_attach_new in J.
  assert (I' : forall p c, S (length h) <= p -> In c (P_Stack.ch (heap (mm s2)) p) -> S (length h) <= c < length (heap (mm s2)))
    by (intros p c; specialize (I p c); rewrite attach_length in I; exact I).
  assert (K' : forall c, In c cs -> S (length h) <= c < length (heap (mm s2)))
    by (intros c; specialize (K c); rewrite attach_length in K; exact K).
  assert (H' : forall p, p < S (length h) -> p <> length h -> get (heap (mm s2)) p = get (attach h t e) p)
    by (intros p; specialize (H p); rewrite attach_length in H; exact H).
  clear H I K. rename H' into H. rename I' into I. rename K' into K.
  assert (ch0 : P_Stack.ch (attach h t e) (length h) = []) by (unfold P_Stack.ch; rewrite get_attach_new; reflexivity).
  rewrite ch0 in J. simpl in J.
  set (h2 := heap (mm s2)) in *.
  assert (H3 : heap (mm s3) = upd h2 (length h) (fun e => Entry (e_id e) (e_parent e) (e_fn e) (e_args e) true (Some (0, pn)) (e_go e) (e_children e)))
    by (rewrite E3; reflexivity).
  set (fe := fun e => Entry (e_id e) (e_parent e) (e_fn e) (e_args e) true (Some (0, pn)) (e_go e) (e_children e)) in *.
  assert (L3 : length (heap (mm s3)) = length h2) by (rewrite H3; apply upd_length).
  assert (G3 : forall p, p <> length h -> get (heap (mm s3)) p = get h2 p)
    by (intros p N; rewrite H3; unfold get; apply nth_upd_other; auto).
  assert (G3' : get (heap (mm s3)) (length h) = fe (get h2 (length h)))
    by (rewrite H3; unfold get; apply nth_upd_same; lia).
  assert (S1 : length (stacks (mm s1)) = length (stacks (mm s))) by (rewrite E1; apply upd_length).
  assert (S3 : length (stacks (mm s3)) = length (stacks (mm s2))) by (rewrite E3; apply upd_length).
  assert (ST3 : get_stack (mm s3) k = Stack (s_maxid (get_stack (mm s2) k)) (s_roots (get_stack (mm s2) k)) (Some t)
                   (s_depth (get_stack (mm s2) k) - 1) (s_end (get_stack (mm s2) k) || false))
    by (rewrite E3; unfold finish, get_stack; cbn [stacks]; rewrite nth_upd_same by lia; reflexivity).
  assert (ST1 : s_roots (get_stack (mm s1) k) = s_roots (get_stack (mm s) k))
    by (rewrite E1; unfold get_stack; cbn [stacks]; rewrite nth_upd_same by lia; reflexivity).
  assert (Hh : heap (mm s) = h) by reflexivity. clearbody h.
  split; rewrite ?Hh; try congruence; try lia.
  - rewrite ST3. simpl. congruence.
  - rewrite ST3. simpl. congruence.
  - unfold csizes in *. simpl. lia.
  - intros p Lp N. rewrite G3 by lia. rewrite H by lia. rewrite get_attach_old by lia.
    destruct (Nat.eqb_spec p t); [contradiction|reflexivity].
  - intros p c Lp Ic. destruct (Nat.eq_dec p (length h)) as [->|N].
    + unfold P_Stack.ch in Ic. rewrite G3', J in Ic. simpl in Ic. apply K in Ic. lia.
    + unfold P_Stack.ch in Ic. rewrite G3 in Ic by auto. apply (I p c) in Ic; lia.
  - exists [length h]. split; [|split].
    + rewrite G3 by lia. rewrite H by lia. rewrite get_attach_old by lia. rewrite Nat.eqb_refl. reflexivity.
    + intros c [<-|[]]. lia.
    + constructor; [|constructor].
      assert (Q : Forall (fun c => S (length h) <= c < length h2) cs) by now apply Forall_forall.
      assert (X : Forall2 (repr (heap (mm s3))) cs (map vt ts)).
      { clear -L Q I G3 L3. induction L as [|c v cs vs R FF IH]; [constructor|]. inversion Q; subst. constructor; auto.
        apply repr_frame with (h := h2) (Q := fun c => S (length h) <= c < length h2); auto.
        - intros q Qq Lq. cbv beta in Qq. split; [lia|]. apply G3; lia.
        - intros q c' Qq Lq Ic. cbv beta in Qq. apply (I q c'); [lia|exact Ic]. }
      assert (Y : repr (heap (mm s3)) (length h) (V (e_fn (fe (get h2 (length h)))) (e_args (fe (get h2 (length h))))
         (e_finished (fe (get h2 (length h)))) (e_res (fe (get h2 (length h)))) (e_go (fe (get h2 (length h)))) (map vt ts))).
      { rewrite <- G3'. constructor; [lia|]. rewrite G3', J. exact X. }
      rewrite J in Y. exact Y.
Qed.

Definition tracing_in (k : sid) (d : sdata) (t : ptr) (s : st) : Prop :=
  cur s = Some (k, d) /\ d_tracing d = true /\ trapping s = 0 /\ k < length (stacks (mm s)) /\
  s_top (get_stack (mm s) k) = Some t /\ t < length (heap (mm s)).

Lemma grows_tracing k d t s s' ts : grows k t s s' ts -> tracing_in k d t s -> tracing_in k d t s'.
Proof.
  intros [A B C D E F G H I J] (K & L & M & N & O & Q). repeat split; try congruence; lia.
Qed.

Lemma the_mock_local P s k d f : cur s = Some (k, d) -> the_mock P s f = mock_of P (d_local d) f.
Proof. unfold the_mock, local, mock_of. intros ->. reflexivity. Qed.

Definition traces (P : prog) (rec : bool -> list stmt -> st -> option (st * bool))
   (spec : bool -> list stmt -> option (list ctree * bool)) (k : sid) (d : sdata) : Prop :=
  forall pk l t s s' p, tracing_in k d t s -> rec pk l s = Some (s', p) ->
    exists ts, spec pk l = Some (ts, p) /\ grows k t s s' ts.

Lemma call_fn_traces P rec spec k d : inert_rec rec -> benign' P rec -> traces P rec spec k d ->
  forall pk f t s s' p, tracing_in k d t s -> call_fn P rec pk f s = Some (s', p) ->
  exists ts q, (if mocked P (d_local d) f then Some ([], false) else spec pk (p_body P f)) = Some (ts, q) /\ p = q /\
    grows k t s s' (if d_filter d f then [Call f (pk || q) ts] else ts).
Proof.
  intros K B TR pk f t s s' p TI H. pose proof TI as (Cu & Dt & T0 & Lk & Top & Lt).
  unfold call_fn, trap_fn in H.
  destruct (trap_body P rec pk f (inc s)) as [[s1 o]|] eqn:E; [|discriminate].
  assert (SN : start_of P f (inc s) = None).
  { unfold start_of. destruct (p_trace P f); auto. simpl. rewrite Cu, Dt. simpl. now rewrite andb_false_r. }
  apply trap_body_inv in E; auto; [|simpl; lia|rewrite SN; discriminate].
  rewrite (start_st_none _ _ _ SN) in E.
  assert (MO : match the_mock P (inc s) f with Some (_, ok) => ok | None => false end = mocked P (d_local d) f)
    by (rewrite (the_mock_local P (inc s) k d f Cu); reflexivity).
  rewrite MO in E.
  destruct E as (s3 & ts & I3 & G & [(X & I & ->)|(k' & d' & Cu' & _ & Df & _ & m' & e & old & PN & I & ->)]).
  - (* not allowed by the filter *)
    assert (Df : d_filter d f = false).
    { destruct X as [X|[[_ X]|(k' & d' & Cu' & X)]].
      - simpl in X. lia.
      - apply (X k d Cu Dt).
      - simpl in Cu'. rewrite Cu in Cu'. now injection Cu' as <- <-. }
    rewrite Df.
    assert (I1 : inert s (dec s1)) by (apply inert_dec_inc; eapply inert_trans; eauto).
    assert (G1 : grows k t s (emit (EBody f) (dec s1)) []).
    { apply grows_inert. eapply inert_trans; [exact I1|]. apply inert_emit. discriminate. }
    assert (B2 : exists s2 r2 ts2, (if mocked P (d_local d) f then Some (dec s1, false) else rec pk (p_body P f) (emit (EBody f) (dec s1))) = Some (s2, r2) /\
        (if mocked P (d_local d) f then Some ([], false) else spec pk (p_body P f)) = Some (ts2, r2) /\ grows k t s s2 ts2).
    { destruct (mocked P (d_local d) f).
      - exists (dec s1), false, []. split; auto. split; auto. now apply grows_inert.
      - destruct (rec pk (p_body P f) (emit (EBody f) (dec s1))) as [[s2 r2]|] eqn:E2; [|discriminate].
        destruct (TR _ _ t _ _ _ (grows_tracing _ _ _ _ _ _ G1 TI) E2) as (ts2 & S2 & G2).
        exists s2, r2, ts2. split; auto. split; auto. apply (grows_trans k t s _ s2 [] ts2 Lt G1 G2). }
    destruct B2 as (s2 & r2 & ts2 & E2 & S2 & G2). rewrite E2 in H.
    destruct (post_fn rec (pk || r2) (wrap_posts ts) s2) as [[s4 r4]|] eqn:E4; [|discriminate].
    injection H as <- <-. apply wrap_posts_inert in E4 as [I4 ->]; auto.
    exists ts2, r2. split; auto. split; [now rewrite orb_false_r|].
    rewrite <- (app_nil_r ts2). apply (grows_trans k t s s2); auto. now apply grows_inert.
  - simpl in Cu'. rewrite Cu in Cu'. injection Cu' as <- <-. rewrite Df.
    rewrite SN in I, H. cbn [option_map] in H. cbv zeta in I.
    destruct I3 as (M3 & C3 & X3 & T3). simpl in M3, C3, X3, T3.
    rewrite M3 in PN.
    assert (PN' : m' = fst (push_new (mm s) k f 0) /\ e = length (heap (mm s)) /\ old = Some t).
    { rewrite PN. split; auto. unfold push_new in PN. rewrite Top in PN. injection PN as _ <- <-. auto. }
    destruct PN' as (Em & -> & ->).
    destruct I as (M1 & C1 & X1 & T1). simpl in M1, C1, X1, T1.
    set (s1' := emit (EBody f) (dec s1)) in H.
    assert (TI1 : tracing_in k d (length (heap (mm s))) s1').
    { assert (EM : mm s1' = Mem (attach (heap (mm s)) t (Entry (S (s_maxid (get_stack (mm s) k))) (e_id (get (heap (mm s)) t)) f 0 false None None []))
         (upd (stacks (mm s)) k (fun st => Stack (S (S (s_maxid st))) (s_roots st) (Some (length (heap (mm s)))) (s_depth st + 1) (s_end st)))).
      { change (mm s1') with (mm s1). rewrite M1, Em. unfold push_new. rewrite Top. reflexivity. }
      split; [simpl; congruence|]. split; [exact Dt|]. split; [simpl; rewrite T1, T3; simpl; auto|].
      rewrite EM. split; [simpl; now rewrite upd_length|]. split; [unfold get_stack; simpl; rewrite nth_upd_same by lia; reflexivity|].
      cbn [heap]. rewrite attach_length. lia. }
    assert (B2 : exists s2 r2 ts2, (if mocked P (d_local d) f then Some (dec s1, false) else rec pk (p_body P f) s1') = Some (s2, r2) /\
        (if mocked P (d_local d) f then Some ([], false) else spec pk (p_body P f)) = Some (ts2, r2) /\
        grows k (length (heap (mm s))) (dec s1) s2 ts2).
    { assert (GE : grows k (length (heap (mm s))) (dec s1) s1' []) by (apply grows_inert, inert_emit; discriminate).
      destruct (mocked P (d_local d) f).
      - exists (dec s1), false, []. split; auto. split; auto. apply grows_inert, inert_refl.
      - destruct (rec pk (p_body P f) s1') as [[s2 r2]|] eqn:E2; [|discriminate].
        destruct (TR _ _ _ _ _ _ TI1 E2) as (ts2 & S2 & G2).
        exists s2, r2, ts2. split; auto. split; auto. apply (grows_trans k _ _ s1' s2 [] ts2); auto.
        destruct TI1 as (_ & _ & _ & _ & _ & L1). exact L1. }
    destruct B2 as (s2 & r2 & ts2 & E2 & S2 & G2). rewrite E2 in H. clear E2.
    cbn [post_fn] in H.
    destruct (run_posts rec (pk || r2) ts (inc s2)) as [[s4 r4]|] eqn:E4; [|discriminate].
    destruct (run_posts_inert _ _ _ K G _ _ _ (Nat.lt_0_succ _ : 0 < trapping (inc s2)) E4) as [(M4 & C4 & X4 & T4) ->].
    simpl in M4, C4, X4, T4. injection H as <- <-.
    exists ts2, r2. split; auto. split; [now rewrite orb_false_r|].
    apply (grows_call k t s (dec s1) s2 _ f ts2 (pk || r2)); auto.
    + simpl. congruence.
    + simpl. rewrite M4. reflexivity.
    + simpl. congruence.
    + simpl. congruence.
    + simpl. rewrite T4. simpl. rewrite (gr_trapping _ _ _ _ _ G2). simpl. rewrite T1, T3. simpl. auto.
Qed.

Lemma exec_traces n P k d : benign P ->
  traces P (exec n P) (calls_flagged (p_body P) (mocked P (d_local d)) (d_filter d) n) k d.
Proof.
  intros B. induction n as [|n IH]; intros pk l t s s' p TI H; [discriminate|]. simpl in H.
  assert (Lt : t < length (heap (mm s))) by apply TI.
  destruct l as [|x r].
  { injection H as <- <-. exists []. split; auto. apply grows_inert, inert_refl. }
  cbn [calls_flagged].
  match type of H with match ?a with _ => _ end = _ => destruct a as [[s1 q]|] eqn:E; [|discriminate] end.
  match goal with |- context [match (match x with SCall _ => _ | _ => _ end) with _ => _ end] => idtac end.
  assert (I1 : exists ts1, match x with
               | SCall f =>
                   match (if mocked P (d_local d) f then Some ([], false) else calls_flagged (p_body P) (mocked P (d_local d)) (d_filter d) n pk (p_body P f)) with
                   | None => None
                   | Some (ts, p) => Some ((if d_filter d f then [Call f (pk || p) ts] else ts), p)
                   end
               | SPanic => Some ([], true)
               | STry b => match calls_flagged (p_body P) (mocked P (d_local d)) (d_filter d) n pk b with None => None | Some (ts, _) => Some (ts, false) end
               | SFinally b fin =>
                   match calls_flagged (p_body P) (mocked P (d_local d)) (d_filter d) n pk b with
                   | None => None
                   | Some (t1, p1) =>
                       match calls_flagged (p_body P) (mocked P (d_local d)) (d_filter d) n (pk || p1) fin with
                       | None => None
                       | Some (t2, p2) => Some (t1 ++ t2, p1 || p2)
                       end
                   end
               end = Some (ts1, q) /\ grows k t s s1 ts1).
  { destruct x.
    - destruct (call_fn_traces P _ _ k d (exec_inert n P B) (benign_rec P n B) IH _ _ _ _ _ _ TI E) as (ts & q' & S1 & -> & G).
      rewrite S1. eauto.
    - injection E as <- <-. exists []. split; auto. apply grows_inert, inert_refl.
    - destruct (exec n P pk b s) as [[s2 p2]|] eqn:E2; [|discriminate]. injection E as <- <-.
      destruct (IH _ _ _ _ _ _ TI E2) as (ts & S2 & G). rewrite S2. eauto.
    - destruct (exec n P pk b s) as [[s2 p2]|] eqn:E2; [|discriminate].
      destruct (exec n P (pk || p2) fin s2) as [[s3 p3]|] eqn:E3; [|discriminate].
      injection E as <- <-. destruct (IH _ _ _ _ _ _ TI E2) as (ts2 & S2 & G2).
      destruct (IH _ _ _ _ _ _ (grows_tracing _ _ _ _ _ _ G2 TI) E3) as (ts3 & S3 & G3).
      rewrite S2, S3. exists (ts2 ++ ts3). split; auto. eapply grows_trans; eauto. }
  destruct I1 as (ts1 & S1 & G1). rewrite S1.
  destruct q.
  - injection H as <- <-. eauto.
  - destruct (IH _ _ _ _ _ _ (grows_tracing _ _ _ _ _ _ G1 TI) H) as (ts2 & S2 & G2). rewrite S2.
    exists (ts1 ++ ts2). split; auto. eapply grows_trans; eauto.
Qed.
