(** * The recorded tree is exactly the goroutine's own history of calls (C12, C13).
    Model: M_Stack; specification: S_Stack and the section below. *)
From Coq Require Import List Arith Bool ZArith Lia.
From Verif Require Import M_Stack S_Stack P_Stack P_Stack2 P_Stack3.
Import ListNotations.

(** ** Specification: the history of one goroutine, as a forest *)
(** A call begun and not finished: function, arguments, finished calls and go
    statements below it so far. *)
Record pending := Pending { o_fn : nat; o_args : nat; o_ch : list vtree }.
(** Finished root calls; the pending calls, innermost first; did the trace end. *)
Record ghist := GH { gh_roots : list vtree; gh_open : list pending; gh_ended : bool }.
Definition no_history : ghist := GH [] [] false.

(** Something that is over goes under the innermost pending call. *)
Definition record (v : vtree) (h : ghist) : ghist :=
  match gh_open h with
  | [] => GH (gh_roots h ++ [v]) [] (gh_ended h)
  | o :: r => GH (gh_roots h) (Pending (o_fn o) (o_args o) (o_ch o ++ [v]) :: r) (gh_ended h)
  end.

(** What action [a] adds to the history of goroutine [g]; [n] goroutines exist. *)
Definition hist_step (n : nat) (a : action) (g : nat) (h : ghist) : ghist :=
  match a with
  | APush g' fn args =>
      if g' =? g then GH (gh_roots h) (Pending fn args [] :: gh_open h) (gh_ended h) else h
  | AFinish g' ends res panic =>
      if g' =? g then
        match gh_open h with
        | [] => h
        | o :: r => record (V (o_fn o) (o_args o) true (Some (res, panic)) None (o_ch o))
                           (GH (gh_roots h) r (gh_ended h || ends))
        end
      else h
  | AFork g' traced =>
      if (g' =? g) && traced then
        match gh_open h with [] => h | _ => record (V 0 0 false None (Some n) []) h end
      else h
  | AExit g' => if g' =? g then GH (gh_roots h) (gh_open h) true else h
  | ASnapshot _ => h
  end.
Definition forks (a : action) : nat := match a with AFork _ _ => 1 | _ => 0 end.
Fixpoint hist (n : nat) (acts : list action) (g : nat) (h : ghist) : ghist :=
  match acts with
  | [] => h
  | a :: r => hist (n + forks a) r g (hist_step n a g h)
  end.
(** Goroutine 0 exists at the start. *)
Definition history (acts : list action) (g : nat) : ghist := hist 1 acts g no_history.

(** The forest: pending calls are nested and shown unfinished. *)
Fixpoint nest (os : list pending) (inner : list vtree) : list vtree :=
  match os with
  | [] => inner
  | o :: r => nest r [V (o_fn o) (o_args o) false None None (o_ch o ++ inner)]
  end.
Definition forest (h : ghist) : list vtree := gh_roots h ++ nest (gh_open h) [].

(** ** Proof *)
Inductive closedv : vtree -> Prop :=
| closedv_intro fn args fin res go ch : (fin = true \/ go <> None) -> Forall closedv ch -> closedv (V fn args fin res go ch).

Definition closedh (h : ghist) : Prop := Forall closedv (gh_roots h) /\ Forall (fun o => Forall closedv (o_ch o)) (gh_open h).

Lemma record_closed v h : closedv v -> closedh h -> closedh (record v h).
Proof.
  intros C [R O]. unfold record. destruct (gh_open h) as [|o r] eqn:E; split; simpl; auto.
  - apply Forall_app; auto.
  - inversion O; subst. constructor; auto. simpl. apply Forall_app; auto.
Qed.
Lemma hist_step_closed n a g h : closedh h -> closedh (hist_step n a g h).
Proof.
  intros C. pose proof C as [R O]. destruct a; simpl; auto.
  - destruct (g0 =? g); auto. split; simpl; auto. constructor; simpl; auto.
  - destruct (g0 =? g); auto. destruct (gh_open h) as [|o r] eqn:E; auto. inversion O; subst.
    apply record_closed; [constructor; auto|split; simpl; auto].
  - destruct ((g0 =? g) && traced); auto. destruct (gh_open h) as [|o r] eqn:E; auto.
    apply record_closed; auto. constructor; auto. right; discriminate.
  - destruct (g0 =? g); auto. 
Qed.

Lemma repr_closed h h' :
  (forall q, q < length h -> (e_finished (get h q) = true \/ e_go (get h q) <> None) -> q < length h' /\ get h' q = get h q) ->
  forall v p, closedv v -> repr h p v -> repr h' p v.
Proof.
  intros K. induction v as [fn args fin res go vs IH] using vtree_ind'. intros p C R.
  apply repr_inv in R as (us & L & F & E). injection E as -> -> -> -> -> <-.
  inversion C; subst. destruct (K p L) as [L' G]; auto. rewrite <- G. constructor; auto.
  rewrite G. change (Forall2 (repr h') (ch h p) vs). clear -F IH H6.
  induction F; auto. inversion IH; subst. inversion H6; subst. constructor; auto.
Qed.
Lemma repr_closed_all h h' ps vs :
  (forall q, q < length h -> (e_finished (get h q) = true \/ e_go (get h q) <> None) -> q < length h' /\ get h' q = get h q) ->
  Forall closedv vs -> Forall2 (repr h) ps vs -> Forall2 (repr h') ps vs.
Proof. intros K C F. induction F; auto. inversion C; subst. constructor; auto. eapply repr_closed; eauto. Qed.

Definition opt (i : option ptr) : list ptr := match i with Some p => [p] | None => [] end.
Fixpoint mo (h : list entry) (inner : option ptr) (fs : list (ptr * option ptr)) (os : list pending) (roots : list ptr) (rvs : list vtree) : Prop :=
  match fs, os with
  | [], [] => exists rs, roots = rs ++ opt inner /\ Forall2 (repr h) rs rvs
  | (p, _) :: fs, o :: os =>
      p < length h /\ (exists cs, ch h p = cs ++ opt inner /\ Forall2 (repr h) cs (o_ch o)) /\
      e_fn (get h p) = o_fn o /\ e_args (get h p) = o_args o /\ e_finished (get h p) = false /\
      e_res (get h p) = None /\ e_go (get h p) = None /\ mo h (Some p) fs os roots rvs
  | _, _ => False
  end.

Lemma mo_frame h h' T : (forall q, q < length h -> ~ T q -> q < length h' /\ get h' q = get h q) ->
  (forall q, T q -> e_finished (get h q) = false /\ e_go (get h q) = None) ->
  forall fs inner os roots rvs, (forall p, In p (map fst fs) -> ~ T p) ->
  Forall closedv rvs -> Forall (fun o => Forall closedv (o_ch o)) os ->
  mo h inner fs os roots rvs -> mo h' inner fs os roots rvs.
Proof.
  intros K U.
  assert (K' : forall q, q < length h -> (e_finished (get h q) = true \/ e_go (get h q) <> None) -> q < length h' /\ get h' q = get h q).
  { intros q L F. apply K; auto. intros t. destruct (U q t) as [A B]. destruct F; congruence. }
  induction fs as [|[p o'] fs IH]; intros inner [|o os] roots rvs N C1 C2 M; simpl in M |- *; try contradiction.
  - destruct M as (rs & -> & F). exists rs. split; auto. eapply repr_closed_all; eauto.
  - destruct M as (L & (cs & Ec & F) & M). inversion C2; subst. destruct (K p L) as [L' G]; [apply N; now left|].
    unfold ch. rewrite G. split; auto. split.
    + exists cs. split; auto. eapply repr_closed_all; eauto.
    + destruct M as (M1 & M2 & M3 & M4 & M5 & M). repeat split; auto. apply IH; auto. intros; apply N; now right.
Qed.

Lemma repr_mk h p fn args fin res go vs : p < length h -> Forall2 (repr h) (ch h p) vs ->
  e_fn (get h p) = fn -> e_args (get h p) = args -> e_finished (get h p) = fin -> e_res (get h p) = res -> e_go (get h p) = go ->
  repr h p (V fn args fin res go vs).
Proof. intros L F <- <- <- <- <-. now constructor. Qed.

Lemma mo_forest h : forall fs inner os roots rvs vs, mo h inner fs os roots rvs -> Forall2 (repr h) (opt inner) vs ->
  Forall2 (repr h) roots (rvs ++ nest os vs).
Proof.
  induction fs as [|[p o'] fs IH]; intros inner [|o os] roots rvs vs M F; simpl in M |- *; try contradiction.
  - destruct M as (rs & -> & F'). apply Forall2_app; auto.
  - destruct M as (L & (cs & Ec & F') & M1 & M2 & M3 & M4 & M5 & M). eapply IH; eauto. simpl. constructor; auto.
    apply repr_mk; auto. rewrite Ec. now apply Forall2_app.
Qed.

Record HI (w : world) (hs : nat -> ghist) : Prop := {
  hi_mo : forall s, s < length (stacks (w_mem w)) ->
     mo (heap (w_mem w)) None (g_frames (gor_at w s)) (gh_open (hs s)) (s_roots (get_stack (w_mem w) s)) (gh_roots (hs s));
  hi_nd : forall s, NoDup (map fst (g_frames (gor_at w s)));
  hi_end : forall s, s < length (stacks (w_mem w)) -> s_end (get_stack (w_mem w) s) = gh_ended (hs s);
  hi_new : forall s, length (stacks (w_mem w)) <= s -> hs s = no_history;
  hi_closed : forall s, closedh (hs s)
}.

Lemma mo_lt h fs : forall inner os roots rvs, mo h inner fs os roots rvs -> forall p, In p (map fst fs) -> p < length h.
Proof.
  induction fs as [|[p o'] fs IH]; intros inner [|o os] roots rvs M q I; simpl in *; try contradiction.
  destruct M as (L & _ & _ & _ & _ & _ & _ & M). destruct I as [<-|I]; eauto.
Qed.
Lemma gor_alive_lt w g : g_alive (gor_at w g) = true -> g < length (w_gs w).
Proof. intros H. destruct (Nat.lt_ge_cases g (length (w_gs w))); auto. unfold gor_at in H. rewrite nth_overflow in H by lia. discriminate. Qed.

Lemma gor_upd w g f m s : g < length (w_gs w) -> gor_at (World m (upd (w_gs w) g f)) s = if g =? s then f (gor_at w s) else gor_at w s.
Proof.
  intros L. unfold gor_at. simpl. destruct (Nat.eqb_spec g s) as [->|N]; [now rewrite nth_upd_same|now rewrite nth_upd_other].
Qed.
Lemma stack_upd h ss g f s : g < length ss -> get_stack (Mem h (upd ss g f)) s = if g =? s then f (nth s ss new_stack) else nth s ss new_stack.
Proof.
  intros L. unfold get_stack. simpl. destruct (Nat.eqb_spec g s) as [->|N]; [now rewrite nth_upd_same|now rewrite nth_upd_other].
Qed.

Lemma frames_cross w own g s p : Inv w own -> g < length (stacks (w_mem w)) -> s < length (stacks (w_mem w)) ->
  In p (map fst (g_frames (gor_at w g))) -> In p (map fst (g_frames (gor_at w s))) -> g = s.
Proof.
  intros I Lg Ls A B. apply in_map_iff in A as ([p1 o1] & <- & A). apply in_map_iff in B as ([p2 o2] & E & B). simpl in E; subst p2.
  apply (o_own _ _ _ _ _ (i_open _ _ I g Lg)) in A as [A _]. apply (o_own _ _ _ _ _ (i_open _ _ I s Ls)) in B as [B _]. congruence.
Qed.

Lemma repr_one h p fn args fin res go : p < length h -> get h p = Entry (e_id (get h p)) (e_parent (get h p)) fn args fin res go [] ->
  repr h p (V fn args fin res go []).
Proof.
  intros L G. set (e := get h p) in *.
  replace (V fn args fin res go []) with (V (e_fn (get h p)) (e_args (get h p)) (e_finished (get h p)) (e_res (get h p)) (e_go (get h p)) []).
  - constructor; auto. fold e. rewrite G. constructor.
  - fold e. rewrite G. reflexivity.
Qed.

Lemma ext_keeps h e (T : ptr -> Prop) : forall q, q < length h -> ~ T q -> q < length (h ++ e) /\ get (h ++ e) q = get h q.
Proof. intros q L _. rewrite app_length. split; [lia|]. now apply get_app_l. Qed.
Lemma attach_keeps h t e : forall q, q < length h -> ~ q = t -> q < length (attach h t e) /\ get (attach h t e) q = get h q.
Proof. intros q L N. rewrite attach_length. split; [lia|]. rewrite get_attach_old by auto. apply Nat.eqb_neq in N. now rewrite N. Qed.
Lemma upd_keeps h t f : forall q, q < length h -> ~ q = t -> q < length (upd h t f) /\ get (upd h t f) q = get h q.
Proof. intros q L N. rewrite upd_length. split; auto. unfold get. apply nth_upd_other. auto. Qed.

Lemma mo_ext h e fs inner os roots rvs : Forall closedv rvs -> Forall (fun o => Forall closedv (o_ch o)) os ->
  mo h inner fs os roots rvs -> mo (h ++ e) inner fs os roots rvs.
Proof. intros. apply mo_frame with (h := h) (T := fun _ => False); auto. intros q L _. apply (ext_keeps h e (fun _ => False)); auto. intros q []. Qed.

Lemma HI_ext w hs hs' : (forall s, hs s = hs' s) -> HI w hs -> HI w hs'.
Proof. intros E [A B C D F]. split; auto; intros s; rewrite <- E; auto. Qed.

Lemma step_hist w own hs a w' : Inv w own -> HI w hs -> step w a = Some w' ->
  HI w' (fun g => hist_step (length (stacks (w_mem w))) a g (hs g)).
Proof.
  intros I H E. pose proof (i_len _ _ I) as IL. destruct H as [HM HN HE HW HC].
  destruct a as [g fn args|g ends res panic|g traced|g|s0]; simpl in E.
  - (* push *)
    destruct (g_alive (gor_at w g)) eqn:A; [|discriminate]. apply gor_alive_lt in A. rewrite IL in A.
    destruct (push_new (w_mem w) g fn args) as [m fr] eqn:P. injection E as <-.
    assert (A' : g < length (w_gs w)) by lia.
    pose proof (i_open _ _ I g A) as OG. pose proof (o_top _ _ _ _ _ OG) as TG. pose proof (HM g A) as MG.
    unfold push_new in P. rewrite TG in P.
    destruct (g_frames (gor_at w g)) as [|[t ot] fs] eqn:FG; injection P as <- <-.
    + split; simpl; rewrite ?upd_length.
      * intros s L. rewrite gor_upd, stack_upd by auto. pose proof (HM s L) as Ms. fold (get_stack (w_mem w) s).
        destruct (Nat.eqb_spec g s) as [<-|N].
        -- rewrite FG in Ms |- *. simpl in Ms |- *. destruct (gh_open (hs g)); [|contradiction]. destruct Ms as (rs & Er & F).
           rewrite app_length, get_app_mid. simpl. split; [lia|]. split; [exists []; unfold ch; rewrite get_app_mid; split; auto|].
           repeat split; auto. exists rs. simpl in Er. rewrite app_nil_r in Er. rewrite Er. split; auto. now apply repr_app_all.
        -- destruct (HC s). apply mo_ext; auto.
      * intros s. rewrite gor_upd by auto. destruct (g =? s) eqn:Eq; auto. apply Nat.eqb_eq in Eq. subst s. rewrite FG. simpl. constructor; [tauto|constructor].
      * intros s L. rewrite stack_upd by auto. fold (get_stack (w_mem w) s). destruct (g =? s); simpl; auto.
      * intros s L. destruct (Nat.eqb_spec g s); [subst; lia|auto].
      * intros s. apply (hist_step_closed (length (stacks (w_mem w))) (APush g fn args) s). auto.
    + assert (Tt : e_finished (get (heap (w_mem w)) t) = false /\ e_go (get (heap (w_mem w)) t) = None /\ t < length (heap (w_mem w))).
      { simpl in MG. destruct (gh_open (hs g)); [contradiction|]. tauto. }
      set (e := Entry _ _ fn args false None None []).
      change (upd (heap (w_mem w)) t (add_child (length (heap (w_mem w)))) ++ [e]) with (attach (heap (w_mem w)) t e).
      split; simpl; rewrite ?upd_length.
      * intros s L. rewrite gor_upd, stack_upd by auto. pose proof (HM s L) as Ms. fold (get_stack (w_mem w) s).
        destruct (Nat.eqb_spec g s) as [<-|N].
        -- rewrite FG in Ms |- *. destruct (HC g) as [C1 C2]. pose proof (HN g) as ND. rewrite FG in ND. simpl in ND. inversion ND as [|? ? ND1 ND2]; subst.
           simpl in Ms |- *. destruct (gh_open (hs g)) as [|o os]; [contradiction|]. inversion C2 as [|? ? C3 C4]; subst. destruct Ms as (L1 & (cs & Ec & F) & M1 & M2 & M3 & M4 & M5 & Ms).
           rewrite attach_length, get_attach_new. split; [lia|]. split; [exists []; unfold ch; rewrite get_attach_new; split; auto|].
           repeat split; auto.
           ++ exists cs. rewrite ch_attach, Nat.eqb_refl, Ec by auto. simpl. rewrite app_nil_r. split; auto.
              eapply repr_closed_all; [|eassumption|eassumption]. intros q Lq Hq. apply attach_keeps; auto. intros ->. destruct Hq; congruence.
           ++ rewrite get_attach_old, Nat.eqb_refl by auto. exact M1.
           ++ rewrite get_attach_old, Nat.eqb_refl by auto. exact M2.
           ++ rewrite get_attach_old, Nat.eqb_refl by auto. exact M3.
           ++ rewrite get_attach_old, Nat.eqb_refl by auto. exact M4.
           ++ rewrite get_attach_old, Nat.eqb_refl by auto. exact M5.
           ++ eapply mo_frame with (T := fun q => q = t); eauto using attach_keeps; [intros q ->; tauto|]. intros q Iq ->. auto.
        -- destruct (HC s). eapply mo_frame with (T := fun q => q = t); eauto using attach_keeps; [intros q ->; tauto|].
           intros q Iq ->. apply N. eapply frames_cross; eauto. rewrite FG. now left.
      * intros s. rewrite gor_upd by auto. destruct (Nat.eqb_spec g s) as [<-|]; auto. simpl. constructor; auto.
        intros J. eapply mo_lt in J; [|rewrite FG; exact MG]. lia.
      * intros s L. rewrite stack_upd by auto. fold (get_stack (w_mem w) s). destruct (g =? s); simpl; auto.
      * intros s L. destruct (Nat.eqb_spec g s); [subst; lia|auto].
      * intros s. apply (hist_step_closed (length (stacks (w_mem w))) (APush g fn args) s). auto.
  - (* finish *)
    destruct (g_alive (gor_at w g)) eqn:A; [|discriminate]. apply gor_alive_lt in A. pose proof A as A'. rewrite IL in A.
    pose proof (HM g A) as MG. pose proof (i_open _ _ I g A) as OG.
    destruct (g_frames (gor_at w g)) as [|[t ot] fs] eqn:FG; [discriminate|]. injection E as <-.
    pose proof (HN g) as ND. rewrite FG in ND. simpl in ND. inversion ND as [|? ? ND1 ND2]; subst.
    assert (Tt : e_finished (get (heap (w_mem w)) t) = false /\ e_go (get (heap (w_mem w)) t) = None /\ t < length (heap (w_mem w))).
    { simpl in MG. destruct (gh_open (hs g)); [contradiction|]. tauto. }
    set (F0 := fun e => Entry (e_id e) (e_parent e) (e_fn e) (e_args e) true (Some (res, panic)) (e_go e) (e_children e)).
    unfold finish. fold F0.
    split; simpl; rewrite ?upd_length.
    + intros s L. rewrite gor_upd, stack_upd by auto. pose proof (HM s L) as Ms. fold (get_stack (w_mem w) s).
      destruct (Nat.eqb_spec g s) as [<-|N].
      * rewrite FG in Ms |- *. destruct (HC g) as [C1 C2].
        simpl in Ms |- *. destruct (gh_open (hs g)) as [|o os]; [contradiction|]. inversion C2 as [|? ? C3 C4]; subst.
        destruct Ms as (L1 & (cs & Ec & F) & M1 & M2 & M3 & M4 & M5 & Ms). simpl in Ec. rewrite app_nil_r in Ec. subst cs.
        assert (Gt : get (upd (heap (w_mem w)) t F0) t = F0 (get (heap (w_mem w)) t)) by (unfold get; now rewrite nth_upd_same).
        assert (Rt : repr (upd (heap (w_mem w)) t F0) t (V (o_fn o) (o_args o) true (Some (res, panic)) None (o_ch o))).
        { rewrite <- M1, <- M2, <- M5.
          replace (V _ _ _ _ _ _) with (V (e_fn (get (upd (heap (w_mem w)) t F0) t)) (e_args (get (upd (heap (w_mem w)) t F0) t)) (e_finished (get (upd (heap (w_mem w)) t F0) t)) (e_res (get (upd (heap (w_mem w)) t F0) t)) (e_go (get (upd (heap (w_mem w)) t F0) t)) (o_ch o)) by (rewrite Gt; reflexivity).
          constructor; [now rewrite upd_length|]. rewrite Gt. simpl. change (Forall2 (repr (upd (heap (w_mem w)) t F0)) (ch (heap (w_mem w)) t) (o_ch o)).
          eapply repr_closed_all; [|eassumption|eassumption]. intros q Lq Hq. apply upd_keeps; auto. intros ->. destruct Hq; congruence. }
        assert (Mt : mo (upd (heap (w_mem w)) t F0) (Some t) fs os (s_roots (get_stack (w_mem w) g)) (gh_roots (hs g))).
        { eapply mo_frame with (T := fun q => q = t); eauto using upd_keeps; [intros q ->; tauto|]. intros q Iq ->. auto. }
        destruct fs as [|[t2 o2] fs]; destruct os as [|o' os]; simpl in Mt |- *; try contradiction.
        -- destruct Mt as (rs & -> & Fr). exists (rs ++ [t]). simpl. rewrite app_nil_r. split; auto. apply Forall2_app; auto.
        -- destruct Mt as (Q1 & (cs & Ec & Q2) & Q). split; auto. split; auto. exists (cs ++ [t]). simpl in Ec |- *. rewrite app_nil_r. split; auto.
           apply Forall2_app; auto.
      * destruct (HC s). eapply mo_frame with (T := fun q => q = t); eauto using upd_keeps; [intros q ->; tauto|].
        intros q Iq ->. apply N. eapply frames_cross; eauto. rewrite FG. now left.
    + intros s. rewrite gor_upd by auto. destruct (Nat.eqb_spec g s) as [<-|]; auto. rewrite FG. simpl. auto.
    + intros s L. rewrite stack_upd by auto. fold (get_stack (w_mem w) s). destruct (Nat.eqb_spec g s) as [<-|]; simpl; auto.
      rewrite (HE g L). simpl in MG. destruct (gh_open (hs g)) as [|o os]; [contradiction|]. unfold record. simpl. destruct os; reflexivity.
    + intros s L. destruct (Nat.eqb_spec g s); [subst; lia|auto].
    + intros s. apply (hist_step_closed (length (stacks (w_mem w))) (AFinish g ends res panic) s). auto.
  - (* fork *)
    destruct (g_alive (gor_at w g)) eqn:A; [|discriminate]. apply gor_alive_lt in A. pose proof A as A'. rewrite IL in A. injection E as <-.
    set (n := length (stacks (w_mem w))) in *.
    assert (GA : forall m s, gor_at (World m (w_gs w ++ [Gor [] true])) s = if s =? n then Gor [] true else gor_at w s).
    { intros m s. unfold gor_at. simpl. destruct (Nat.eqb_spec s n) as [->|N].
      - rewrite app_nth2 by lia. now rewrite IL, Nat.sub_diag.
      - destruct (Nat.lt_ge_cases s n); [now rewrite app_nth1 by lia|]. rewrite app_nth2, (nth_overflow (w_gs w)) by lia.
        destruct (s - length (w_gs w)) eqn:Eq; [lia|]. now destruct n0. }
    assert (SA : forall h s, s < S n -> get_stack (Mem h (stacks (w_mem w) ++ [new_stack])) s = if s =? n then new_stack else get_stack (w_mem w) s).
    { intros h s L. unfold get_stack. simpl. destruct (Nat.eqb_spec s n) as [->|N].
      - rewrite app_nth2 by lia. now rewrite Nat.sub_diag.
      - now rewrite app_nth1 by (unfold n in *; lia). }
    assert (Base : HI (World (Mem (heap (w_mem w)) (stacks (w_mem w) ++ [new_stack])) (w_gs w ++ [Gor [] true])) hs).
    { split; simpl; rewrite ?app_length; simpl; rewrite ?Nat.add_1_r; fold n.
      - intros s L. rewrite GA, SA by auto. destruct (Nat.eqb_spec s n) as [->|N]; [|apply HM; lia].
        rewrite (HW n) by auto. simpl. exists []. auto.
      - intros s. rewrite GA. destruct (s =? n); auto. constructor.
      - intros s L. rewrite SA by auto. destruct (Nat.eqb_spec s n) as [->|N]; [now rewrite (HW n)|apply HE; lia].
      - intros s L. apply HW. lia.
      - auto. }
    destruct traced; simpl.
    2:{ destruct Base as [B1 B2 B3 B4 B5]. split; simpl in *; intros s; destruct (g =? s); simpl; auto. }
    pose proof (i_open _ _ I g A) as OG. pose proof (o_top _ _ _ _ _ OG) as TG. pose proof (HM g A) as MG.
    unfold append_go. rewrite SA by (unfold n in *; lia). replace (g =? n) with false by (symmetry; apply Nat.eqb_neq; lia). rewrite TG.
    destruct (g_frames (gor_at w g)) as [|[t ot] fs] eqn:FG.
    + simpl in MG. destruct (gh_open (hs g)) eqn:Og; [|contradiction].
      apply (HI_ext _ hs); [|exact Base]. intros s. destruct (Nat.eqb_spec g s) as [<-|]; simpl; auto. now rewrite Og.
    + assert (Tt : e_finished (get (heap (w_mem w)) t) = false /\ e_go (get (heap (w_mem w)) t) = None /\ t < length (heap (w_mem w))).
      { simpl in MG. destruct (gh_open (hs g)); [contradiction|]. tauto. }
      destruct Base as [B1 B2 B3 B4 B5]. cbv beta iota zeta. cbn [heap stacks]. set (h := heap (w_mem w)) in *.
      set (e := Entry 0 0 0 0 false None (@Some sid (length (w_gs w))) (@nil ptr)).
      simpl in B1, B2, B3, B4.
      split; cbn [w_mem stacks heap]; fold h; fold e; change (upd h t (add_child (length h)) ++ [e]) with (attach h t e).
      * intros s L. specialize (B1 s L). change (get_stack (Mem (attach h t e) (stacks (w_mem w) ++ [new_stack])) s)
          with (get_stack (Mem h (stacks (w_mem w) ++ [new_stack])) s).
        change (gor_at (World (Mem (attach h t e) (stacks (w_mem w) ++ [new_stack])) (w_gs w ++ [Gor [] true])) s)
          with (gor_at (World (Mem h (stacks (w_mem w) ++ [new_stack])) (w_gs w ++ [Gor [] true])) s).
        destruct (Nat.eqb_spec g s) as [<-|N]; cbn [andb].
        -- destruct (HC g) as [C1 C2]. pose proof (B2 g) as ND. rewrite GA in B1, ND |- *. replace (g =? n) with false in * by (symmetry; apply Nat.eqb_neq; lia).
           rewrite FG in B1, ND |- *. simpl in ND. inversion ND as [|? ? ND1 ND2]; subst.
           unfold record. destruct (gh_open (hs g)) as [|o os]; [contradiction|]. cbn [mo gh_open gh_roots o_fn o_args o_ch] in B1 |- *. inversion C2 as [|? ? C3 C4]; subst. destruct B1 as (L1 & (cs & Ec & F) & M1 & M2 & M3 & M4 & M5 & Ms).
           rewrite attach_length, get_attach_old, Nat.eqb_refl by auto. split; [lia|]. simpl in Ec. rewrite app_nil_r in Ec. subst cs.
           repeat split; auto.
           ++ exists (ch h t ++ [length h]). rewrite ch_attach, Nat.eqb_refl by auto. simpl. rewrite app_nil_r. split; auto.
              apply Forall2_app.
              ** eapply repr_closed_all; [|eassumption|eassumption]. intros q Lq Hq. apply attach_keeps; auto. intros ->. destruct Hq; congruence.
              ** constructor; [|constructor]. apply repr_one; [rewrite attach_length; lia|]. rewrite get_attach_new. unfold e. simpl. now rewrite IL.
           ++ eapply mo_frame with (T := fun q => q = t); eauto using attach_keeps; [intros q ->; tauto|]. intros q Iq ->. auto.
        -- destruct (HC s). eapply mo_frame with (T := fun q => q = t); eauto using attach_keeps; [intros q ->; tauto|].
           intros q Iq ->. rewrite GA in Iq. destruct (s =? n) eqn:Esn; [destruct Iq|]. apply N. apply Nat.eqb_neq in Esn. rewrite app_length in L. simpl in L. eapply frames_cross; eauto; [fold n; lia|]. rewrite FG. now left.
      * exact B2.
      * intros s L. specialize (B3 s L). change (get_stack (Mem (attach h t e) (stacks (w_mem w) ++ [new_stack])) s)
          with (get_stack (Mem h (stacks (w_mem w) ++ [new_stack])) s). rewrite B3. destruct ((g =? s) && true); auto. unfold record. destruct (gh_open (hs s)); auto.
      * intros s L. destruct (Nat.eqb_spec g s); [subst; rewrite app_length in L; unfold n in *; lia|]. cbn [andb]. auto.
      * intros s. apply (hist_step_closed n (AFork g true) s). auto.
  - (* exit *)
    destruct (g_alive (gor_at w g)) eqn:A; [|discriminate]. apply gor_alive_lt in A. pose proof A as A'. rewrite IL in A.
    destruct (g_frames (gor_at w g)) as [|fr fs] eqn:FG; [|discriminate]. injection E as <-. unfold set_end_if_zero.
    split; simpl; rewrite ?upd_length.
    + intros s L. rewrite gor_upd, stack_upd by auto. pose proof (HM s L) as Ms. fold (get_stack (w_mem w) s).
      destruct (Nat.eqb_spec g s) as [<-|N]; auto. rewrite FG in Ms. simpl in *. exact Ms.
    + intros s. rewrite gor_upd by auto. destruct (g =? s); auto. constructor.
    + intros s L. rewrite stack_upd by auto. fold (get_stack (w_mem w) s). destruct (Nat.eqb_spec g s) as [<-|N]; simpl; auto.
    + intros s L. destruct (Nat.eqb_spec g s); [subst; lia|auto].
    + intros s. apply (hist_step_closed (length (stacks (w_mem w))) (AExit g) s). auto.
  - (* snapshot *)
    injection E as <-. unfold snapshot. destruct (clone_entries _ _ _) as [h' qs] eqn:E. simpl.
    pose proof (clone_shape _ _ _ _ _ E) as Sh.
    destruct Sh as [[e ->] _].
    split; simpl; auto. intros s L. destruct (HC s). apply mo_ext; auto. apply HM; auto.
Qed.

Lemma run_hist acts : forall w own hs w', Inv w own -> HI w hs -> run acts w = Some w' ->
  HI w' (fun g => hist (length (stacks (w_mem w))) acts g (hs g)).
Proof.
  induction acts as [|a r IH]; intros w own hs w' I H E; cbn [run] in E.
  - injection E as <-. exact H.
  - destruct (step w a) as [w1|] eqn:S1; [|discriminate].
    destruct (step_keeps _ _ _ _ I S1) as (own1 & I1 & _).
    pose proof (IH w1 own1 _ w' I1 (step_hist _ _ _ _ _ I H S1) E) as H'.
    assert (L : length (stacks (w_mem w1)) = length (stacks (w_mem w)) + forks a).
    { clear -S1. destruct a; simpl in S1 |- *.
      - destruct (g_alive (gor_at w g)); [|discriminate]. unfold push_new in S1. destruct (s_top _); injection S1 as <-; simpl; rewrite upd_length; lia.
      - destruct (g_alive (gor_at w g)); [|discriminate]. destruct (g_frames _) as [|[]]; [discriminate|]. injection S1 as <-. simpl. rewrite upd_length. lia.
      - destruct (g_alive (gor_at w g)); [|discriminate]. injection S1 as <-. destruct traced; simpl; [unfold append_go; destruct (s_top _)|]; simpl; rewrite app_length; auto.
      - destruct (g_alive (gor_at w g)); [|discriminate]. destruct (g_frames _); [|discriminate]. injection S1 as <-. simpl. rewrite upd_length. lia.
      - injection S1 as <-. unfold snapshot. destruct (clone_entries _ _ _). simpl. lia. }
    rewrite L in H'. exact H'.
Qed.

Lemma history_inv acts w : run acts init_world = Some w -> HI w (history acts).
Proof.
  intros R. unfold history. refine (run_hist acts init_world [] (fun _ => no_history) w init_inv _ R).
  split; simpl; auto.
  - intros [|s] L; [|lia]. simpl. exists []. auto.
  - intros [|[|s]]; constructor.
  - intros [|s] L; [auto|lia].
  - split; constructor.
Qed.

(** ** C12: under every interleaving, the tree of a goroutine's stack is exactly its
    own history: every call it made since its stack exists, with its arguments and
    results, under its caller, in order, unfinished ones included; and the stack is
    ended exactly when the goroutine exited or finished the call that started the trace. *)
Theorem C12_tree_is_history :
  forall acts w s, run acts init_world = Some w ->
    trees_of (w_mem w) s (forest (history acts s)) /\
    s_end (get_stack (w_mem w) s) = gh_ended (history acts s).
Proof.
  intros acts w s R. pose proof (history_inv _ _ R) as [M _ E N _].
  destruct (Nat.lt_ge_cases s (length (stacks (w_mem w)))) as [L|G].
  - split; [|now apply E]. unfold trees_of, forest. eapply mo_forest; [apply M; auto|constructor].
  - rewrite (N s G). unfold trees_of, get_stack. rewrite nth_overflow by auto. simpl. split; [constructor|reflexivity].
Qed.
Print Assumptions C12_tree_is_history.

(** ** C13: an export shows, for each goroutine, its history up to one instant of
    the export. *)
Inductive shown_hist (R : list action -> Prop) : vtree -> xtree -> Prop :=
| shown_hist_call fn args fin res vs xs :
    Forall2 (shown_hist R) vs xs ->
    shown_hist R (V fn args fin res None vs) (X (Some fn) (negb fin) args res xs)
| shown_hist_go fn args fin res child vs xs h cxs :
    Forall2 (shown_hist R) vs xs ->
    R h -> Forall2 (shown_hist R) (forest (history h child)) cxs ->
    shown_hist R (V fn args fin res (Some child) vs)
            (X None (negb (gh_ended (history h child))) args res (xs ++ cxs)).

(** The instants of a run from w (reached by acts0) to w'. *)
Definition instant (acts0 : list action) (w w' : world) (h : list action) : Prop :=
  exists a b wi, h = acts0 ++ a /\ run a w = Some wi /\ run b wi = Some w'.

Section XInd.
  Variable Q : xtree -> Prop.
  Hypothesis H : forall fn r a res ch, Forall Q ch -> Q (X fn r a res ch).
  Fixpoint xtree_ind2 (x : xtree) : Q x :=
    match x with
    | X fn r a res ch => H fn r a res ch ((fix go l : Forall Q l := match l with [] => Forall_nil _ | y :: r => Forall_cons _ (xtree_ind2 y) (go r) end) ch)
    end.
End XInd.

Lemma trees_det m s us vs : trees_of m s us -> trees_of m s vs -> us = vs.
Proof.
  unfold trees_of. intros A. revert vs. induction A; intros vs B; inversion B; subst; auto.
  f_equal; auto. eapply repr_det; eauto.
Qed.

Lemma shown_to_hist acts0 w w' : run acts0 init_world = Some w -> forall x v,
  shown (during w w') v x -> shown_hist (instant acts0 w w') v x.
Proof.
  intros R0 x. induction x as [fn r a res xs IH] using xtree_ind2. intros v Sh.
  inversion Sh as [? ? ? ? ? ? F|? ? ? ? child ? xs1 m cvs cxs F Pm T1 F2]; subst.
  - constructor. clear -IH F. induction F; auto. inversion IH; subst. constructor; auto.
  - apply Forall_app in IH as [IH1 IH2]. destruct Pm as (a0 & b0 & wi & Ra & Rb & <-).
    assert (Rh : run (acts0 ++ a0) init_world = Some wi) by (eapply run_seq; eauto).
    destruct (C12_tree_is_history _ _ child Rh) as [T E].
    rewrite E. apply shown_hist_go.
    + clear -IH1 F. induction F; auto. inversion IH1; subst. constructor; auto.
    + exists a0, b0, wi. auto.
    + rewrite <- (trees_det _ _ _ _ T1 T). clear -IH2 F2. induction F2; auto. inversion IH2; subst. constructor; auto.
Qed.

Theorem C13_export_shows_history :
  forall fuel s acts0 w ev w' ev' xs,
    run acts0 init_world = Some w -> s < length (stacks (w_mem w)) ->
    export fuel s w ev = Some (w', ev', xs) ->
    exists h, instant acts0 w w' h /\ Forall2 (shown_hist (instant acts0 w w')) (forest (history h s)) xs.
Proof.
  intros fuel s acts0 w ev w' ev' xs R0 L E.
  destruct (export_correct _ _ _ _ _ _ _ _ R0 L E) as [(m & vs & D & T & F) _].
  pose proof D as (a & b & wi & Ra & Rb & <-).
  assert (Rh : run (acts0 ++ a) init_world = Some wi) by (eapply run_seq; eauto).
  exists (acts0 ++ a). split; [exists a, b, wi; auto|].
  destruct (C12_tree_is_history _ _ s Rh) as [T' _]. rewrite <- (trees_det _ _ _ _ T T').
  clear -F R0. induction F; constructor; auto. now apply shown_to_hist.
Qed.
Print Assumptions C13_export_shows_history.

(** Non-trivial: two goroutines interleaved; the history of goroutine 0. *)
Example C12_history_example :
  let acts := [APush 0 1 7; APush 0 2 8; AFork 0 true; APush 1 5 9; AFinish 0 false 3 false; APush 0 3 0; AFinish 1 true 4 true; AExit 1] in
  run acts init_world <> None /\
  forest (history acts 0) = [V 1 7 false None None [V 2 8 true (Some (3, false)) None [V 0 0 false None (Some 1) []]; V 3 0 false None None []]] /\
  history acts 1 = GH [V 5 9 true (Some (4, true)) None []] [] true.
Proof. split; [discriminate|split; reflexivity]. Qed.
