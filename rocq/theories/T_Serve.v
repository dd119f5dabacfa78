(** * Serving on a free port (C99), where the server listens (C100) *)
From Coq Require Import Ascii String List Arith Bool Lia ZArith.
From Verif Require Import M_Str P_Str M_Coverage M_Serve.
Import ListNotations.
Open Scope nat_scope.
Open Scope list_scope.
Opaque max_port.

Fixpoint attempts (l : list event) : list nat := match l with [] => [] | EAttempt p :: r => p :: attempts r | _ :: r => attempts r end.
Fixpoint watches (l : list event) : list nat := match l with [] => [] | EWatch p :: r => p :: watches r | _ :: r => watches r end.
Lemma attempts_app a b : attempts (a ++ b) = attempts a ++ attempts b.
Proof. induction a as [|[]]; cbn; congruence. Qed.
Lemma watches_app a b : watches (a ++ b) = watches a ++ watches b.
Proof. induction a as [|[]]; cbn; congruence. Qed.
Lemma in_attempts p l : In p (attempts l) <-> In (EAttempt p) l.
Proof. induction l as [|[] l IH]; cbn; try rewrite IH; split; intuition (try discriminate); left; congruence. Qed.
Lemma in_watches p l : In p (watches l) <-> In (EWatch p) l.
Proof. induction l as [|[] l IH]; cbn; try rewrite IH; split; intuition (try discriminate); left; congruence. Qed.

(** the part of the state that does not depend on the goroutines *)
Definition serves (c : spc) : Prop := c = SServing \/ c = SReturned Served.
Record inv (auto : bool) (start : nat) (s : state) : Prop := {
  i_le : start <= s_port s;
  i_busy : forall q, start <= q < s_port s -> In (EBusy q) (s_log s);
  i_one : auto = false -> s_port s = start;
  i_busy_le : forall q, In (EBusy q) (s_log s) -> start <= q /\ (q < s_port s \/ (q = s_port s /\ s_pc s = SReturned InUse /\ auto = false));
  i_att : forall p, In p (attempts (s_log s)) -> start <= p <= s_port s /\ (s_pc s = SLoop -> p < s_port s);
  i_nodup : NoDup (attempts (s_log s));
  i_watch : forall p, In p (watches (s_log s)) -> start <= p <= s_port s;
  i_serving : serves (s_pc s) \/ s_pc s = SReturned Failed -> In (EAttempt (s_port s)) (s_log s);
  i_ret : forall o, In (EReturn o) (s_log s) -> s_pc s = SReturned o;
  i_inuse : s_pc s = SReturned InUse -> auto = false /\ In (EBusy start) (s_log s);
  i_before : forall p l1 l2, s_log s = l1 ++ EAttempt p :: l2 -> forall q, start <= q < p -> In (EBusy q) l1
}.
Lemma app_split_last {A} (l1 l2 l : list A) (x y : A) : l1 ++ x :: l2 = l ++ [y] -> (exists l2', l2 = l2' ++ [y] /\ l = l1 ++ x :: l2') \/ (l2 = [] /\ x = y /\ l1 = l).
Proof.
  intros E. destruct l2 as [|z l2] using rev_ind; [right|left; clear IHl2].
  - apply app_inj_tail in E as [-> ->]. auto.
  - rewrite app_comm_cons, app_assoc in E. apply app_inj_tail in E as [<- ->]. exists l2. split; reflexivity.
Qed.
Lemma app_split_in {A} (l1 l2 l suf : list A) (x : A) : l ++ suf = l1 ++ x :: l2 -> ~ In x suf -> exists l2', l = l1 ++ x :: l2'.
Proof.
  revert l1; induction l as [|y l IH]; intros l1 E N.
  - cbn in E. exfalso. apply N. rewrite E. apply in_elt.
  - destruct l1 as [|z l1]; cbn in E.
    + injection E as -> E. now exists l.
    + injection E as -> E. apply IH in E as (l2' & ->); [|exact N]. now exists l2'.
Qed.
Ltac nolog I := let p := fresh in let l1 := fresh in let l2 := fresh in let E := fresh in
  intros p l1 l2 E; apply app_split_in in E as (? & E); [eapply I; exact E|cbn; intuition discriminate].
Lemma NoDup_app_single {A} (l : list A) x : NoDup l -> ~ In x l -> NoDup (l ++ [x]).
Proof. induction l as [|y l IH]; cbn; intros D N; [repeat constructor; auto|]. inversion D; subst. constructor; [rewrite in_app_iff; cbn; intuition congruence|apply IH; tauto]. Qed.
Lemma inv_init auto start : inv auto start (init start).
Proof. constructor; cbn; auto; try lia; try tauto; try (intros; lia); try discriminate. - constructor. - intros [[|]|]; discriminate. - intros ? [] ? E; discriminate. Qed.

Ltac inapp := repeat match goal with H : In _ (_ ++ _) |- _ => apply in_app_iff in H; destruct H as [H|H] | H : In _ [_] |- _ => destruct H as [H|[]] | H : In _ [_; _] |- _ => destruct H as [H|[H|[]]] end.
Lemma inv_step auto watched start s t : inv auto start s -> step auto watched s t -> inv auto start t.
Proof.
  intros [I1 I2 I3 I4 I5 I6 I7 I8 I9 I10 I11] S.
  destruct S; cbn in *;
    try (constructor; cbn; assumption);
    (constructor; cbn; rewrite ?attempts_app, ?watches_app; cbn; rewrite ?app_nil_r; auto).
  (* SDialUsed *)
  - intros q Q. apply in_app_iff. destruct (Nat.eq_dec q (s_port st)) as [->|]; [right; now left|left; apply I2; lia].
  - congruence.
  - intros q Q. inapp; [apply I4 in Q as (A & [B|(_ & B & _)]); [lia|congruence]|]. injection Q as <-. lia.
  - intros p P. apply I5 in P as [P1 P2]. specialize (P2 H). lia.
  - intros p P. apply I7 in P. lia.
  - intros [[E|E]|E]; discriminate.
  - intros o O. inapp; [apply I9 in O; congruence|discriminate].
  - discriminate.
  - nolog I11.
  (* SDialRefuse *)
  - intros q Q. apply in_app_iff. left. auto.
  - intros q Q. inapp; [apply I4 in Q as (A & [B|(B & C & D)]); [auto|congruence]| |discriminate]. injection Q as <-. split; [lia|]. right. auto.
  - intros p P. apply I5 in P as [P1 P2]. split; [lia|discriminate].
  - intros [[E|E]|E]; discriminate.
  - intros o O. inapp; [apply I9 in O; congruence|discriminate|congruence].
  - intros _. split; [exact H1|]. rewrite <- (I3 H1). apply in_app_iff. right. now left.
  - nolog I11.
  (* SDialFree *)
  - intros q Q. apply in_app_iff. left. auto.
  - intros q Q. inapp; [apply I4 in Q as (A & [B|(B & C & D)]); [auto|congruence]|discriminate].
  - intros p P. inapp; [apply I5 in P as [P1 P2]; split; [lia|discriminate]|]. subst. split; [lia|discriminate].
  - apply NoDup_app_single; [exact I6|]. intros P. apply I5 in P as [_ P]. specialize (P H). lia.
  - intros _. apply in_app_iff. right. now left.
  - intros o O. inapp; [apply I9 in O; congruence|discriminate].
  - discriminate.
  - intros p l1 l2 E. destruct (app_split_last l1 l2 (s_log st) (EAttempt p) (EAttempt (s_port st))) as [(l2' & -> & E')|(-> & E' & ->)].
    + now symmetry.
    + eapply I11; exact E'.
    + injection E' as ->. intros q Q. apply I2. lia.
  (* SDoNil *)
  - intros q Q. apply in_app_iff. left. auto.
  - intros q Q. inapp; [apply I4 in Q as (A & [B|(B & C & D)]); [auto|congruence]|discriminate].
  - intros p P. apply I5 in P as [P1 P2]. split; [lia|discriminate].
  - intros _. apply in_app_iff. left. apply I8. left. now left.
  - intros o O. inapp; [apply I9 in O; congruence|congruence].
  - discriminate.
  - nolog I11.
  (* SDoInUse *)
  - intros q Q. apply in_app_iff. destruct (Nat.eq_dec q (s_port st)) as [->|]; [right; now left|left; apply I2; lia].
  - congruence.
  - intros q Q. inapp; [apply I4 in Q as (A & [B|(_ & B & _)]); [lia|congruence]|]. injection Q as <-. lia.
  - intros p P. apply I5 in P as [P1 P2]. lia.
  - intros p P. apply I7 in P. lia.
  - intros [[E|E]|E]; discriminate.
  - intros o O. inapp; [apply I9 in O; congruence|discriminate].
  - discriminate.
  - nolog I11.
  (* SDoInUseRefuse *)
  - intros q Q. apply in_app_iff. left. auto.
  - intros q Q. inapp; [apply I4 in Q as (A & [B|(B & C & D)]); [auto|congruence]| |discriminate]. injection Q as <-. split; [lia|]. right. auto.
  - intros p P. apply I5 in P as [P1 P2]. split; [lia|discriminate].
  - intros [[E|E]|E]; discriminate.
  - intros o O. inapp; [apply I9 in O; congruence|discriminate|congruence].
  - intros _. split; [assumption|]. rewrite <- I3 by assumption. apply in_app_iff. right. now left.
  - nolog I11.
  (* SDoFail *)
  - intros q Q. apply in_app_iff. left. auto.
  - intros q Q. inapp; [apply I4 in Q as (A & [B|(B & C & D)]); [auto|congruence]|discriminate].
  - intros p P. apply I5 in P as [P1 P2]. split; [lia|discriminate].
  - intros _. apply in_app_iff. left. apply I8. left. now left.
  - intros o O. inapp; [apply I9 in O; congruence|congruence].
  - discriminate.
  - nolog I11.
  (* SWCall *)
  - intros q Q. apply in_app_iff. left. auto.
  - intros q Q. inapp; [auto|discriminate].
  - intros p P. inapp; [auto|]. subst. lia.
  - intros E. apply in_app_iff. left. auto.
  - intros o O. inapp; [auto|discriminate].
  - intros E. apply I10 in E as [E1 E2]. split; [exact E1|]. apply in_app_iff. now left.
  - nolog I11.
Qed.
Lemma inv_steps auto watched start s : steps auto watched (init start) s -> inv auto start s.
Proof. intros S. remember (init start) as s0. induction S; subst; [apply inv_init|eapply inv_step; eauto]. Qed.

(** ** C99 *)
(** A port is tried after all before it, from the one asked for, were found in use; no port is tried twice; without
    the leave to go on, only the port asked for is tried; "in use" is answered only without that leave. *)
Theorem C99_ports auto watched start s : steps auto watched (init start) s ->
  (forall p l1 l2, s_log s = l1 ++ EAttempt p :: l2 -> start <= p /\ forall q, start <= q < p -> In (EBusy q) l1) /\
  NoDup (attempts (s_log s)) /\
  (auto = false -> forall p, In (EAttempt p) (s_log s) -> p = start) /\
  (In (EReturn InUse) (s_log s) -> auto = false /\ In (EBusy start) (s_log s)) /\
  (* served: by the last port that was tried, which was not in use *)
  (In (EReturn Served) (s_log s) -> exists p, In (EAttempt p) (s_log s) /\ ~ In (EBusy p) (s_log s) /\ forall p', In (EAttempt p') (s_log s) -> p' <= p).
Proof.
  intros S. apply inv_steps in S. destruct S as [I1 I2 I3 I4 I5 I6 I7 I8 I9 I10 I11].
  split; [|split; [|split; [|split]]].
  - intros p l1 l2 E. split; [|eapply I11; exact E]. apply (I5 p). apply in_attempts. rewrite E. apply in_elt.
  - exact I6.
  - intros A p P. apply in_attempts, I5 in P. specialize (I3 A). lia.
  - intros R. apply I9 in R. auto.
  - intros R. apply I9 in R. exists (s_port s). split; [apply I8; left; now right|]. split.
    + intros B. apply I4 in B as (_ & [B|(_ & B & _)]); [lia|congruence].
    + intros p' P. apply in_attempts, I5 in P. lia.
Qed.

(** the goroutines *)
Fixpoint called (l : list watcher) : nat := match l with [] => 0 | w :: r => (match w_pc w with WCalled => 1 | _ => 0 end) + called r end.
Record winv (watched : bool) (s : state) : Prop := {
  v_count : length (watches (s_log s)) = called (s_watchers s);
  v_len : length (s_watchers s) = if watched then length (attempts (s_log s)) else 0;
  v_timer : forall w, In w (s_watchers s) -> w_pc w = WGo \/ w_pc w = WCalled -> w_timer w = true;
  v_closed : forall i w, nth_error (s_watchers s) i = Some w -> w_closed w = true \/ (i = 0 /\ serves (s_pc s));
  v_after : forall p l1 l2, s_log s = l1 ++ EWatch p :: l2 -> exists a, In (EAttempt a) l1 /\ a <= p
}.
Lemma nth_set {A} i (x : A) l j : i < length l -> nth_error (set_nth i x l) j = if j =? i then Some x else nth_error l j.
Proof.
  unfold set_nth. revert i j; induction l as [|y l IH]; intros i j L; [cbn in L; lia|].
  destruct i; cbn [firstn skipn app].
  - destruct j; reflexivity.
  - destruct j; [reflexivity|]. cbn [nth_error Nat.eqb]. rewrite <- (IH i j) by (cbn in L; lia). reflexivity.
Qed.
Lemma len_set {A} i (x : A) l : i < length l -> length (set_nth i x l) = length l.
Proof. intros L. unfold set_nth. rewrite app_length, firstn_length. cbn [length]. rewrite skipn_length. lia. Qed.
Lemma called_set i w x l : nth_error l i = Some w ->
  called (set_nth i x l) + (match w_pc w with WCalled => 1 | _ => 0 end) = called l + (match w_pc x with WCalled => 1 | _ => 0 end).
Proof.
  unfold set_nth. revert i; induction l as [|y l IH]; intros i E; [destruct i; discriminate|].
  destruct i; cbn in E |- *; [injection E as ->; lia|]. specialize (IH i E). cbn in IH. lia.
Qed.
Lemma in_set {A} i (x y : A) l : In y (set_nth i x l) -> y = x \/ In y l.
Proof.
  unfold set_nth. intros H. apply in_app_iff in H as [H|[<-|H]]; [right|now left|right].
  - rewrite <- (firstn_skipn i l). apply in_app_iff. now left.
  - rewrite <- (firstn_skipn (S i) l). apply in_app_iff. now right.
Qed.
Ltac nolog2 I := let p := fresh in let l1 := fresh in let l2 := fresh in let E := fresh in
  intros p l1 l2 E; apply app_split_in in E as (? & E); [eapply I; exact E|cbn; intuition discriminate].
Lemma called_close watched l : called (close_newest watched l) = called l.
Proof. destruct watched, l; reflexivity. Qed.
Lemma len_close watched l : length (close_newest watched l) = length l.
Proof. destruct watched, l; reflexivity. Qed.
Lemma close_timer (watched : bool) l : (forall w, In w l -> w_pc w = WGo \/ w_pc w = WCalled -> w_timer w = true) ->
  forall w, In w (close_newest watched l) -> w_pc w = WGo \/ w_pc w = WCalled -> w_timer w = true.
Proof. destruct watched, l as [|w0 l]; cbn; auto. intros K w [<-|I]; cbn; [apply K; now left|apply K; now right]. Qed.
Lemma close_closed (watched : bool) l (P : Prop) : length l = 0 \/ watched = true ->
  (forall i w, nth_error l i = Some w -> w_closed w = true \/ (i = 0 /\ P)) ->
  forall i w, nth_error (close_newest watched l) i = Some w -> w_closed w = true.
Proof.
  intros W K i w E. destruct l as [|w0 l]; [destruct watched, i; discriminate|].
  destruct W as [W| ->]; [discriminate|]. cbn in E. destruct i; cbn in E; [injection E as <-; reflexivity|].
  destruct (K (S i) w E) as [C|[C _]]; [exact C|discriminate].
Qed.
Lemma winv_step auto watched start s t : inv auto start s -> winv watched s -> step auto watched s t -> winv watched t.
Proof.
  intros Inv [V1 V2 V3 V4 V5] S.
  assert (W : length (s_watchers s) = 0 \/ watched = true) by (destruct watched; auto).
  assert (B : forall i w, nth_error (s_watchers s) i = Some w -> i < length (s_watchers s)) by (intros i w E; apply nth_error_Some; congruence).
  assert (N : forall i w, s_pc s = SLoop -> nth_error (s_watchers s) i = Some w -> w_closed w = true).
  { intros i w P E. destruct (V4 i w E) as [C|(_ & [C|C])]; [exact C|congruence|congruence]. }
  destruct S; cbn [s_port s_pc s_watchers s_log] in *;
    (constructor; cbn [s_port s_pc s_watchers s_log]; rewrite ?attempts_app, ?watches_app; cbn [attempts watches]; rewrite ?app_nil_r;
     rewrite ?called_close, ?len_close; auto).
  - intros i w E. left. eapply N; eauto.
  - nolog2 V5.
  - intros i w E. left. eapply N; eauto.
  - nolog2 V5.
  - rewrite V1. now destruct watched.
  - destruct watched; cbn; [rewrite app_length, V2; cbn; lia|exact V2].
  - destruct watched; [|exact V3]. intros w [<-|I]; cbn; [intros [|]; discriminate|now apply V3].
  - intros i w E. destruct watched.
    + destruct i; [right; split; [reflexivity|now left]|]. cbn in E. left. eapply N; eauto.
    + left. eapply N; eauto.
  - nolog2 V5.
  - intros i w E. destruct (V4 i w E) as [C|(C & _)]; [now left|right; split; [exact C|now right]].
  - nolog2 V5.
  - now apply close_timer.
  - intros i w E. left. eapply close_closed; eauto.
  - nolog2 V5.
  - now apply close_timer.
  - intros i w E. left. eapply close_closed; eauto.
  - nolog2 V5.
  - now apply close_timer.
  - intros i w E. left. eapply close_closed; eauto.
  - nolog2 V5.
  - (* timer *) pose proof (called_set i w {| w_pc := w_pc w; w_timer := true; w_closed := w_closed w |} _ H). cbn in *. lia.
  - rewrite len_set by eauto. exact V2.
  - intros x X. apply in_set in X as [-> |X]; [reflexivity|now apply V3].
  - intros j x E. rewrite nth_set in E by eauto. destruct (Nat.eqb_spec j i) as [->|]; [|eauto]. injection E as <-. cbn. eauto.
  - pose proof (called_set i w {| w_pc := WGo; w_timer := w_timer w; w_closed := w_closed w |} _ H). rewrite H0 in *. cbn in *. lia.
  - rewrite len_set by eauto. exact V2.
  - intros x X. apply in_set in X as [-> |X]; [cbn; auto|now apply V3].
  - intros j x E. rewrite nth_set in E by eauto. destruct (Nat.eqb_spec j i) as [->|]; [|eauto]. injection E as <-. cbn. eauto.
  - pose proof (called_set i w {| w_pc := WQuit; w_timer := w_timer w; w_closed := w_closed w |} _ H). rewrite H0 in *. cbn in *. lia.
  - rewrite len_set by eauto. exact V2.
  - intros x X. apply in_set in X as [-> |X]; [cbn; intros [|]; discriminate|now apply V3].
  - intros j x E. rewrite nth_set in E by eauto. destruct (Nat.eqb_spec j i) as [->|]; [|eauto]. injection E as <-. cbn. eauto.
  - pose proof (called_set i w {| w_pc := WCalled; w_timer := w_timer w; w_closed := w_closed w |} _ H). rewrite H0 in *. rewrite app_length. cbn in *. lia.
  - rewrite len_set by eauto. exact V2.
  - intros x X. apply in_set in X as [-> |X]; [cbn|now apply V3]. intros _. apply (V3 w); [now apply nth_error_In in H|now left].
  - intros j x E. rewrite nth_set in E by eauto. destruct (Nat.eqb_spec j i) as [->|]; [|eauto]. injection E as <-. cbn. eauto.
  - intros p l1 l2 E. destruct (app_split_last l1 l2 (s_log st) (EWatch p) (EWatch (s_port st))) as [(l2' & -> & E')|(-> & E' & ->)].
    + now symmetry.
    + eapply V5; exact E'.
    + injection E' as ->. destruct W as [W|W]; [apply nth_error_In in H; destruct (s_watchers st); [destruct H|discriminate]|].
      subst watched. assert (L : 0 < length (attempts (s_log st))).
      { rewrite <- V2. apply nth_error_In in H. destruct (s_watchers st); [destruct H|cbn; lia]. }
      destruct (attempts (s_log st)) as [|a r] eqn:A; [cbn in L; lia|]. exists a.
      assert (I : In a (attempts (s_log st))) by (rewrite A; now left). split; [now apply in_attempts|]. now apply (i_att _ _ _ Inv) in I.
Qed.
Lemma winv_init watched start : winv watched (init start).
Proof. constructor; cbn; [reflexivity|now destruct watched|tauto|intros [] ?; discriminate|intros ? [] ? ?; discriminate]. Qed.
Lemma winv_steps auto watched start s : steps auto watched (init start) s -> winv watched s.
Proof.
  intros S. pose proof (inv_steps _ _ _ _ S) as _. remember (init start) as s0.
  induction S; subst; [apply winv_init|].
  eapply winv_step; eauto using inv_steps.
Qed.

(** In every schedule: no more calls of watch than ports were tried, none before a port is tried, none if watch is not
    wanted, and only with numbers that were reached. *)
Theorem C99_watch_bound auto watched start s : steps auto watched (init start) s ->
  length (watches (s_log s)) <= length (attempts (s_log s)) /\
  (watched = false -> watches (s_log s) = []) /\
  forall p l1 l2, s_log s = l1 ++ EWatch p :: l2 ->
    start <= p /\ (exists a, In (EAttempt a) l1 /\ a <= p) /\ (auto = false -> p = start).
Proof.
  intros S. pose proof (inv_steps _ _ _ _ S) as I. pose proof (winv_steps _ _ _ _ S) as [V1 V2 V3 V4 V5].
  assert (C : called (s_watchers s) <= length (s_watchers s)).
  { clear. induction (s_watchers s) as [|w l IH]; cbn; [lia|]. destruct (w_pc w); lia. }
  split; [destruct watched; cbn in V2; lia|]. split.
  - intros ->. destruct (watches (s_log s)); [reflexivity|cbn in *; lia].
  - intros p l1 l2 E. assert (P : In p (watches (s_log s))) by (apply in_watches; rewrite E; apply in_elt).
    apply (i_watch _ _ _ I) in P. split; [lia|]. split; [eapply V5; exact E|]. intros A. apply (i_one _ _ _ I) in A. lia.
Qed.

(** If no attempt lasts as long as the timeout and fails after it: watch is called at most once, with the port that serves. *)
Definition prompt (s : state) : Prop := forall w, In w (s_watchers s) -> w_timer w = false \/ w_closed w = false.
Lemma prompt_back auto watched s t : step auto watched s t -> prompt t -> prompt s.
Proof.
  intros S P w I.
  assert (G : forall i x w0 l, nth_error l i = Some w0 -> In w l -> w = w0 \/ In w (set_nth i x l)).
  { clear. intros i x w0 l. unfold set_nth. revert i; induction l as [|y l IH]; intros i E I; [destruct I|].
    destruct i; cbn in *; [injection E as ->; destruct I; [now left|right; now right]|].
    destruct I as [->|I]; [right; now left|]. destruct (IH i E I) as [A|A]; [now left|right; now right]. }
  destruct S; cbn in *; try (apply P; exact I).
  - apply P. cbn. destruct watched; [now right|exact I].
  - destruct watched; [|apply P; exact I]. unfold prompt in P; cbn in P. destruct (s_watchers st) as [|w0 l]; [destruct I|].
    destruct I as [->|I]; [|apply P; now right]. destruct (P _ (or_introl eq_refl)) as [A|A]; cbn in A; [now left|discriminate].
  - destruct watched; [|apply P; exact I]. unfold prompt in P; cbn in P. destruct (s_watchers st) as [|w0 l]; [destruct I|].
    destruct I as [->|I]; [|apply P; now right]. destruct (P _ (or_introl eq_refl)) as [A|A]; cbn in A; [now left|discriminate].
  - destruct watched; [|apply P; exact I]. unfold prompt in P; cbn in P. destruct (s_watchers st) as [|w0 l]; [destruct I|].
    destruct I as [->|I]; [|apply P; now right]. destruct (P _ (or_introl eq_refl)) as [A|A]; cbn in A; [now left|discriminate].
  - assert (X : forall x, In x (set_nth i x (s_watchers st))) by (intros; unfold set_nth; apply in_elt).
    destruct (G i {| w_pc := w_pc w0; w_timer := true; w_closed := w_closed w0 |} w0 _ H I) as [->|A]; [|now apply P].
    specialize (P _ (X _)). cbn in P. intuition discriminate.
  - assert (X : forall x, In x (set_nth i x (s_watchers st))) by (intros; unfold set_nth; apply in_elt).
    destruct (G i {| w_pc := WGo; w_timer := w_timer w0; w_closed := w_closed w0 |} w0 _ H I) as [->|A]; [|now apply P].
    specialize (P _ (X _)). cbn in P. exact P.
  - assert (X : forall x, In x (set_nth i x (s_watchers st))) by (intros; unfold set_nth; apply in_elt).
    destruct (G i {| w_pc := WQuit; w_timer := w_timer w0; w_closed := w_closed w0 |} w0 _ H I) as [->|A]; [|now apply P].
    specialize (P _ (X _)). cbn in P. exact P.
  - assert (X : forall x, In x (set_nth i x (s_watchers st))) by (intros; unfold set_nth; apply in_elt).
    destruct (G i {| w_pc := WCalled; w_timer := w_timer w0; w_closed := w_closed w0 |} w0 _ H I) as [->|A]; [|now apply P].
    specialize (P _ (X _)). cbn in P. exact P.
Qed.
(** with a call made, some goroutine has called; it is the newest, and its port still serves *)
Lemma called_serves watched s : winv watched s -> prompt s -> called (s_watchers s) <= 1 /\ (0 < called (s_watchers s) -> serves (s_pc s)).
Proof.
  intros [_ _ V3 V4 _] P.
  assert (K : forall i w, nth_error (s_watchers s) i = Some w -> w_pc w = WCalled -> i = 0 /\ serves (s_pc s)).
  { intros i w E C. destruct (V4 i w E) as [X|X]; [|exact X]. apply nth_error_In in E. destruct (P w E) as [Y|Y]; [|congruence].
    rewrite (V3 w E (or_intror C)) in Y. discriminate. }
  destruct (s_watchers s) as [|w l]; cbn; [split; [lia|intros; lia]|].
  assert (Z : called l = 0).
  { assert (Z : forall w', In w' l -> w_pc w' <> WCalled).
    { intros w' I C. apply In_nth_error in I as (i & I). destruct (K (S i) w' I C). discriminate. }
    clear - Z. induction l as [|w' l IH]; [reflexivity|]. cbn. specialize (IH (fun x X => Z x (or_intror X))).
    destruct (w_pc w') eqn:E; try exact IH. now destruct (Z w' (or_introl eq_refl)). }
  split; [destruct (w_pc w); lia|]. intros C. destruct (w_pc w) eqn:E; try lia. now apply (K 0 w).
Qed.
Theorem C99_watch_partial auto watched start s : steps auto watched (init start) s -> prompt s ->
  length (watches (s_log s)) <= 1 /\
  forall p, In (EWatch p) (s_log s) ->
    In (EAttempt p) (s_log s) /\ ~ In (EBusy p) (s_log s) /\ (forall p', In (EAttempt p') (s_log s) -> p' <= p) /\ ~ In (EReturn Failed) (s_log s).
Proof.
  intros S P. pose proof (winv_steps _ _ _ _ S) as V. pose proof (called_serves _ _ V P) as [C1 C2].
  split; [now rewrite (v_count _ _ V)|].
  assert (Q : forall p, In (EWatch p) (s_log s) -> p = s_port s /\ serves (s_pc s)).
  { intros p I.
    assert (Sv : serves (s_pc s)).
    { apply C2. rewrite <- (v_count _ _ V). apply in_watches in I. destruct (watches (s_log s)); [destruct I|cbn; lia]. }
    split; [|exact Sv]. revert I. clear C1 C2 V Sv. revert P. remember (init start) as s0. induction S as [|s0 t u S IH St]; subst; intros P I; [destruct I|].
    specialize (IH eq_refl (prompt_back _ _ _ _ St P)).
    pose proof (winv_steps _ _ _ _ S) as V. pose proof (called_serves _ _ V (prompt_back _ _ _ _ St P)) as [_ D].
    pose proof (called_serves _ _ (winv_steps _ _ _ _ (More _ _ _ _ _ S St)) P) as [_ D2].
    assert (Y : 0 < called (s_watchers u)).
    { rewrite <- (v_count _ _ (winv_steps _ _ _ _ (More _ _ _ _ _ S St))). apply in_watches in I. destruct (watches (s_log u)); [destruct I|cbn; lia]. }
    specialize (D2 Y). destruct St; cbn in *; try (inapp; try discriminate; auto; congruence); try (destruct D2; congruence).
    all: try (inapp; [auto|congruence]). all: auto. }
  intros p I. apply Q in I as [-> Sv]. pose proof (inv_steps _ _ _ _ S) as Iv.
  split; [apply (i_serving _ _ _ Iv); now left|]. split; [|split].
  - intros B. apply (i_busy_le _ _ _ Iv) in B as (_ & [B|(_ & B & _)]); [lia|destruct Sv; congruence].
  - intros p' A. apply in_attempts, (i_att _ _ _ Iv) in A. lia.
  - intros R. apply (i_ret _ _ _ Iv) in R. destruct Sv; congruence.
Qed.

(** Otherwise not: an attempt that lasts longer than the timeout and then finds the port in use. Watch is called twice,
    the first time with a port that was never tried and belongs to someone else. *)
Theorem C99_watch_refuted start : S start <= max_port ->
  exists s, steps true true (init start) s /\
    s_log s = [EAttempt start; EBusy start; EWatch (S start); EBusy (S start); EAttempt (S (S start)); EWatch (S (S start))] /\ s_pc s = SServing.
Proof.
  intros M.
  assert (R0 : steps true true (init start) (init start)) by apply Here.
  assert (R1 : steps true true (init start) {| s_port := start; s_pc := SServing; s_watchers := [new_watcher]; s_log := [EAttempt start] |}) by (eapply More; [exact R0|exact (SDialFree true true (init start) eq_refl)]).
  assert (R2 : steps true true (init start) {| s_port := start; s_pc := SServing; s_watchers := [{| w_pc := WWait; w_timer := true; w_closed := false |}]; s_log := [EAttempt start] |}) by (eapply More; [exact R1|exact (SWTimer true true {| s_port := start; s_pc := SServing; s_watchers := [new_watcher]; s_log := [EAttempt start] |} 0 new_watcher eq_refl)]).
  assert (R3 : steps true true (init start) {| s_port := start; s_pc := SServing; s_watchers := [{| w_pc := WGo; w_timer := true; w_closed := false |}]; s_log := [EAttempt start] |}) by (eapply More; [exact R2|exact (SWGo true true {| s_port := start; s_pc := SServing; s_watchers := [{| w_pc := WWait; w_timer := true; w_closed := false |}]; s_log := [EAttempt start] |} 0 {| w_pc := WWait; w_timer := true; w_closed := false |} eq_refl eq_refl eq_refl)]).
  assert (R4 : steps true true (init start) {| s_port := (S start); s_pc := SLoop; s_watchers := [{| w_pc := WGo; w_timer := true; w_closed := true |}]; s_log := [EAttempt start; EBusy start] |}) by (eapply More; [exact R3|exact (SDoInUse true true {| s_port := start; s_pc := SServing; s_watchers := [{| w_pc := WGo; w_timer := true; w_closed := false |}]; s_log := [EAttempt start] |} eq_refl eq_refl)]).
  assert (R5 : steps true true (init start) {| s_port := (S start); s_pc := SLoop; s_watchers := [{| w_pc := WCalled; w_timer := true; w_closed := true |}]; s_log := [EAttempt start; EBusy start; EWatch (S start)] |}) by (eapply More; [exact R4|exact (SWCall true true {| s_port := (S start); s_pc := SLoop; s_watchers := [{| w_pc := WGo; w_timer := true; w_closed := true |}]; s_log := [EAttempt start; EBusy start] |} 0 {| w_pc := WGo; w_timer := true; w_closed := true |} eq_refl eq_refl)]).
  assert (R6 : steps true true (init start) {| s_port := (S (S start)); s_pc := SLoop; s_watchers := [{| w_pc := WCalled; w_timer := true; w_closed := true |}]; s_log := [EAttempt start; EBusy start; EWatch (S start); EBusy (S start)] |}) by (eapply More; [exact R5|exact (SDialUsed true true {| s_port := (S start); s_pc := SLoop; s_watchers := [{| w_pc := WCalled; w_timer := true; w_closed := true |}]; s_log := [EAttempt start; EBusy start; EWatch (S start)] |} eq_refl M eq_refl)]).
  assert (R7 : steps true true (init start) {| s_port := (S (S start)); s_pc := SServing; s_watchers := [new_watcher; {| w_pc := WCalled; w_timer := true; w_closed := true |}]; s_log := [EAttempt start; EBusy start; EWatch (S start); EBusy (S start); EAttempt (S (S start))] |}) by (eapply More; [exact R6|exact (SDialFree true true {| s_port := (S (S start)); s_pc := SLoop; s_watchers := [{| w_pc := WCalled; w_timer := true; w_closed := true |}]; s_log := [EAttempt start; EBusy start; EWatch (S start); EBusy (S start)] |} eq_refl)]).
  assert (R8 : steps true true (init start) {| s_port := (S (S start)); s_pc := SServing; s_watchers := [{| w_pc := WWait; w_timer := true; w_closed := false |}; {| w_pc := WCalled; w_timer := true; w_closed := true |}]; s_log := [EAttempt start; EBusy start; EWatch (S start); EBusy (S start); EAttempt (S (S start))] |}) by (eapply More; [exact R7|exact (SWTimer true true {| s_port := (S (S start)); s_pc := SServing; s_watchers := [new_watcher; {| w_pc := WCalled; w_timer := true; w_closed := true |}]; s_log := [EAttempt start; EBusy start; EWatch (S start); EBusy (S start); EAttempt (S (S start))] |} 0 new_watcher eq_refl)]).
  assert (R9 : steps true true (init start) {| s_port := (S (S start)); s_pc := SServing; s_watchers := [{| w_pc := WGo; w_timer := true; w_closed := false |}; {| w_pc := WCalled; w_timer := true; w_closed := true |}]; s_log := [EAttempt start; EBusy start; EWatch (S start); EBusy (S start); EAttempt (S (S start))] |}) by (eapply More; [exact R8|exact (SWGo true true {| s_port := (S (S start)); s_pc := SServing; s_watchers := [{| w_pc := WWait; w_timer := true; w_closed := false |}; {| w_pc := WCalled; w_timer := true; w_closed := true |}]; s_log := [EAttempt start; EBusy start; EWatch (S start); EBusy (S start); EAttempt (S (S start))] |} 0 {| w_pc := WWait; w_timer := true; w_closed := false |} eq_refl eq_refl eq_refl)]).
  assert (R10 : steps true true (init start) {| s_port := (S (S start)); s_pc := SServing; s_watchers := [{| w_pc := WCalled; w_timer := true; w_closed := false |}; {| w_pc := WCalled; w_timer := true; w_closed := true |}]; s_log := [EAttempt start; EBusy start; EWatch (S start); EBusy (S start); EAttempt (S (S start)); EWatch (S (S start))] |}) by (eapply More; [exact R9|exact (SWCall true true {| s_port := (S (S start)); s_pc := SServing; s_watchers := [{| w_pc := WGo; w_timer := true; w_closed := false |}; {| w_pc := WCalled; w_timer := true; w_closed := true |}]; s_log := [EAttempt start; EBusy start; EWatch (S start); EBusy (S start); EAttempt (S (S start))] |} 0 {| w_pc := WGo; w_timer := true; w_closed := false |} eq_refl eq_refl)]).
  eexists. split; [exact R10|]. split; reflexivity.
Qed.
(** A prompt run: the port asked for is in use, the next one serves. *)
Example C99_case start : start <= max_port ->
  exists s, steps true true (init start) s /\ prompt s /\ s_log s = [EBusy start; EAttempt (S start); EWatch (S start)].
Proof.
  intros M.
  assert (R0 : steps true true (init start) (init start)) by apply Here.
  assert (R1 : steps true true (init start) {| s_port := (S start); s_pc := SLoop; s_watchers := []; s_log := [EBusy start] |}) by (eapply More; [exact R0|exact (SDialUsed true true (init start) eq_refl M eq_refl)]).
  assert (R2 : steps true true (init start) {| s_port := (S start); s_pc := SServing; s_watchers := [new_watcher]; s_log := [EBusy start; EAttempt (S start)] |}) by (eapply More; [exact R1|exact (SDialFree true true {| s_port := (S start); s_pc := SLoop; s_watchers := []; s_log := [EBusy start] |} eq_refl)]).
  assert (R3 : steps true true (init start) {| s_port := (S start); s_pc := SServing; s_watchers := [{| w_pc := WWait; w_timer := true; w_closed := false |}]; s_log := [EBusy start; EAttempt (S start)] |}) by (eapply More; [exact R2|exact (SWTimer true true {| s_port := (S start); s_pc := SServing; s_watchers := [new_watcher]; s_log := [EBusy start; EAttempt (S start)] |} 0 new_watcher eq_refl)]).
  assert (R4 : steps true true (init start) {| s_port := (S start); s_pc := SServing; s_watchers := [{| w_pc := WGo; w_timer := true; w_closed := false |}]; s_log := [EBusy start; EAttempt (S start)] |}) by (eapply More; [exact R3|exact (SWGo true true {| s_port := (S start); s_pc := SServing; s_watchers := [{| w_pc := WWait; w_timer := true; w_closed := false |}]; s_log := [EBusy start; EAttempt (S start)] |} 0 {| w_pc := WWait; w_timer := true; w_closed := false |} eq_refl eq_refl eq_refl)]).
  assert (R5 : steps true true (init start) {| s_port := (S start); s_pc := SServing; s_watchers := [{| w_pc := WCalled; w_timer := true; w_closed := false |}]; s_log := [EBusy start; EAttempt (S start); EWatch (S start)] |}) by (eapply More; [exact R4|exact (SWCall true true {| s_port := (S start); s_pc := SServing; s_watchers := [{| w_pc := WGo; w_timer := true; w_closed := false |}]; s_log := [EBusy start; EAttempt (S start)] |} 0 {| w_pc := WGo; w_timer := true; w_closed := false |} eq_refl eq_refl)]).
  eexists. split; [exact R5|]. split; [|reflexivity]. intros w [<-|[]]. now right.
Qed.

(** *** FindListenablePort *)
(** It ends, with the first port from the one asked for that nobody serves. *)
Theorem C99_find serving start :
  exists p, finds serving start p /\ (forall p', finds serving start p' -> p' = p) /\
    start <= p /\ (p <= max_port -> serving p = false) /\ (forall q, start <= q < p -> serving q = true) /\ p <= Nat.max start (S max_port).
Proof.
  assert (G : forall n start, S max_port - start = n -> exists p, finds serving start p /\ (forall p', finds serving start p' -> p' = p) /\
    start <= p /\ (p <= max_port -> serving p = false) /\ (forall q, start <= q < p -> serving q = true) /\ p <= Nat.max start (S max_port)).
  { induction n as [|n IH]; intros st E.
    - exists st. assert (D : dial serving st = false) by (unfold dial; destruct (Nat.leb_spec st max_port); [lia|reflexivity]).
      split; [now constructor|]. split; [intros p' F; inversion F; subst; [reflexivity|congruence]|]. repeat split; intros; lia.
    - destruct (dial serving st) eqn:D.
      + destruct (IH (S st)) as (p & F & U & L & S & B & M); [lia|]. exists p. unfold dial in D. apply andb_true_iff in D as [D1 D2].
        apply Nat.leb_le in D1. split; [apply FNext; [unfold dial; rewrite D2, andb_true_r; now apply Nat.leb_le|exact F]|].
        split; [intros p' F'; inversion F'; subst; [unfold dial in *; rewrite D2, andb_true_r in *; apply Nat.leb_gt in H; lia|now apply U]|].
        split; [lia|]. split; [exact S|]. split; [|lia]. intros q Q. destruct (Nat.eq_dec q st) as [->|]; [exact D2|apply B; lia].
      + exists st. split; [now constructor|]. split; [intros p' F; inversion F; subst; [reflexivity|congruence]|].
        split; [lia|]. split; [|split; [intros; lia|lia]].
        intros M. unfold dial in D. apply andb_false_iff in D as [D|D]; [apply Nat.leb_gt in D; lia|exact D]. }
  exact (G _ start eq_refl).
Qed.
(** When all are served it answers with a number that is no port, and no error. *)
Theorem C99_find_refuted : exists serving start p, start <= max_port /\ finds serving start p /\ max_port < p.
Proof.
  exists (fun _ => true), max_port. destruct (C99_find (fun _ => true) max_port) as (p & F & _ & _ & S & _).
  exists p. split; [lia|]. split; [exact F|]. destruct (Nat.lt_ge_cases max_port p); [assumption|]. specialize (S H). discriminate.
Qed.

(** ** C100 *)
Definition has_colon (s : bytes) : Prop := In ":"%char s.
Lemma colon_dec s : existsb (fun c => eqc c ":"%char) s = true <-> has_colon s.
Proof.
  unfold has_colon. rewrite existsb_exists. split; [intros (x & I & E); now apply eqc_eq in E as ->|intros I; exists ":"%char; split; [exact I|now apply eqc_eq]].
Qed.
(** The server listens on the address asked for when it is one of the machine or 0.0.0.0 or ::, else on localhost and on
    nothing else; on the port asked for when it is a number, else on 7070. *)
Theorem C100_host locals bind port h p : get_host_and_ip locals bind port = (h, p) ->
  (p = 7070%Z /\ (port = [] \/ parse_int port = None) \/ parse_int port = Some p) /\
  match locals with
  | None => h = #"localhost"
  | Some ips =>
      (In bind (ips ++ [#"0.0.0.0"; #"::"]) ->
        (has_colon bind -> h = "["%char :: bind ++ #"]") /\ (~ has_colon bind -> h = bind)) /\
      (~ In bind (ips ++ [#"0.0.0.0"; #"::"]) -> h = #"localhost")
  end.
Proof.
  unfold get_host_and_ip. intros E. destruct locals as [ips|]; pose proof (f_equal fst E) as E1; pose proof (f_equal snd E) as E2; cbn [fst snd] in E1, E2; rewrite <- E1, <- E2; clear E E1 E2 h p.
  - split; [destruct port; [left; auto|destruct (parse_int _); auto]|].
    assert (X : existsb (fun ip => eqs ip bind) (ips ++ [#"0.0.0.0"; #"::"]) = true <-> In bind (ips ++ [#"0.0.0.0"; #"::"])).
    { rewrite existsb_exists. split; [intros (x & I & Q); now apply eqs_eq in Q as <-|intros I; exists bind; split; [exact I|apply eqs_refl]]. }
    destruct (existsb (fun ip => eqs ip bind) (ips ++ [#"0.0.0.0"; #"::"])).
    + split; [intros _|intros N; now destruct N; apply X]. rewrite <- colon_dec. destruct (existsb _ bind); split; intros K; try reflexivity; try discriminate; exfalso; now apply K.
    + split; [intros I; now apply X in I|reflexivity].
  - split; [destruct port; [left; auto|destruct (parse_int _); auto]|reflexivity].
Qed.
(** The address that is probed is the address that is served, except for IPv6. *)
Theorem C100_probe_partial locals bind port h p : get_host_and_ip locals bind port = (h, p) -> ~ has_colon h -> join_host_port h p = listen_addr h p.
Proof.
  intros _ N. unfold join_host_port, listen_addr. destruct (existsb (fun c => eqc c ":"%char) h) eqn:E; [apply colon_dec in E; contradiction|reflexivity].
Qed.
Theorem C100_probe_refuted locals bind port h p : get_host_and_ip locals bind port = (h, p) -> has_colon h ->
  listen_addr h p = "["%char :: bind ++ #"]:" ++ format_int p /\ join_host_port h p = #"[[" ++ bind ++ #"]]:" ++ format_int p.
Proof.
  intros E C. destruct locals as [ips|]; [|injection E as <- <-; cbn in C; unfold has_colon in C; cbn in C; intuition discriminate].
  assert (I : In bind (ips ++ [#"0.0.0.0"; #"::"]) \/ ~ In bind (ips ++ [#"0.0.0.0"; #"::"])).
  { destruct (in_dec (list_eq_dec Ascii.ascii_dec) bind (ips ++ [#"0.0.0.0"; #"::"])); auto. }
  destruct (C100_host _ _ _ _ _ E) as [_ [A B]]. destruct I as [I|I].
  - destruct (A I) as [A1 A2].
    assert (Hb : has_colon bind).
    { destruct (in_dec Ascii.ascii_dec ":"%char bind) as [X|X]; [exact X|]. rewrite (A2 X) in C. contradiction. }
    rewrite (A1 Hb) in *. split.
    + unfold listen_addr. cbn. f_equal. rewrite <- app_assoc. reflexivity.
    + unfold join_host_port. apply colon_dec in C. rewrite C. cbn. do 2 f_equal. rewrite <- app_assoc. reflexivity.
  - rewrite (B I) in C. unfold has_colon in C. cbn in C. intuition discriminate.
Qed.
Example C100_case : get_host_and_ip (Some [#"10.0.0.1"; #"fe80::1"]) #"fe80::1" #"80" = (#"[fe80::1]", 80%Z) /\
  get_host_and_ip (Some [#"10.0.0.1"]) #"example.org" #"x" = (#"localhost", 7070%Z).
Proof. split; vm_compute; reflexivity. Qed.
(** The address to open: for 0.0.0.0 each address of the machine once, in order; else the one that is served. *)
Theorem C100_url v4 host port :
  get_url_to_open v4 host port =
    let urls := map (fun a => #"http://" ++ listen_addr a port) (if eqs host #"0.0.0.0" then match v4 with [] => [host] | _ => v4 end else [host]) in
    (hd [] urls, tl urls).
Proof. unfold get_url_to_open, listen_addr. destruct (eqs host #"0.0.0.0"); [destruct v4|]; reflexivity. Qed.
