(** * C67: copying files by several workers *)
From Coq Require Import List Arith Bool Lia Permutation.
From Verif Require Import M_Copy.
Import ListNotations.

(** ** Specification *)
(** What may be seen after any number of steps of the walk and n workers, in any interleaving. *)
Inductive seen (fails : fname -> bool) (files : list fname) (n : nat) : cstate -> Prop :=
| seen_init : seen fails files n (cinit files n)
| seen_step s s' : seen fails files n s -> cstep fails s s' -> seen fails files n s'.
Definition returned (s : cstate) (r : option fname) : Prop := walk s = Returned r.

(** ** Proofs *)
Definition hand (x : worker) : list fname := match x with Busy f => [f] | _ => [] end.
Definition hands (l : list worker) : list fname := flat_map hand l.
Definition live (l : list worker) : nat := length (filter (fun x => match x with Exited => false | _ => true end) l).
Lemma nth_split_worker (l : list worker) : forall i x, nth_error l i = Some x -> l = firstn i l ++ x :: skipn (S i) l.
Proof. induction l as [|y l IH]; intros [|i] x E; try discriminate; cbn in *; [now injection E as ->|]. f_equal. now apply IH. Qed.
Lemma set_worker_length l i x y : nth_error l i = Some x -> length (set_worker l i y) = length l.
Proof. intros E. rewrite (nth_split_worker l i x E) at 2. unfold set_worker. rewrite !app_length. reflexivity. Qed.
Lemma hands_split l i x : nth_error l i = Some x -> Permutation (hands l) (hand x ++ hands (firstn i l ++ skipn (S i) l)).
Proof.
  intros E. rewrite (nth_split_worker l i x E) at 1. unfold hands. rewrite !flat_map_app. cbn [flat_map].
  rewrite !app_assoc. apply Permutation_app_tail. apply Permutation_app_comm.
Qed.
Lemma hands_set l i y : Permutation (hands (set_worker l i y)) (hand y ++ hands (firstn i l ++ skipn (S i) l)).
Proof.
  unfold hands, set_worker. rewrite !flat_map_app. cbn [flat_map]. rewrite !app_assoc. apply Permutation_app_tail. apply Permutation_app_comm.
Qed.
Definition alive (x : worker) : nat := match x with Exited => 0 | _ => 1 end.
Lemma live_cons x l : live (x :: l) = alive x + live l. Proof. unfold live. destruct x; reflexivity. Qed.
Lemma live_app a b : live (a ++ b) = live a + live b. Proof. unfold live. now rewrite filter_app, app_length. Qed.
Lemma live_split l i x : nth_error l i = Some x -> live l = alive x + live (firstn i l ++ skipn (S i) l).
Proof. intros E. rewrite (nth_split_worker l i x E) at 1. rewrite !live_app, live_cons. lia. Qed.
Lemma live_set l i y : live (set_worker l i y) = alive y + live (firstn i l ++ skipn (S i) l).
Proof. unfold set_worker. rewrite !live_app, live_cons. lia. Qed.


(** [unsent]: not yet in the queue, for good or not; [gone]: what failed. *)
Record inv (fails : fname -> bool) (files : list fname) (n : nat) (s : cstate) (unsent gone : list fname) : Prop := {
  i_files : Permutation files (unsent ++ queue s ++ hands (workers s) ++ gone ++ copied s);
  i_gone : Forall (fun f => fails f = true) gone;
  i_copied : Forall (fun f => fails f = false) (copied s);
  i_workers : length (workers s) = n;
  i_live : length gone + live (workers s) <= n;
  i_queue : length (queue s) <= queue_cap;
  i_errs : incl (errs s) gone /\ length (errs s) <= length gone;
  i_walk : match walk s with
           | Walking t => unsent = t /\ length gone + live (workers s) = n /\ length (errs s) = length gone
           | Closed r | Returned r => match r with None => unsent = [] | Some x => In x gone end
           end;
  i_drained : length gone + live (workers s) < n -> queue s = [];
  i_returned : forall r, walk s = Returned r -> Forall (fun x => x = Exited) (workers s) }.

Lemma inv_init fails files n : inv fails files n (cinit files n) files [].
Proof.
  assert (H : hands (repeat Idle n) = []) by (induction n; auto). assert (L : live (repeat Idle n) = n) by (induction n as [|m IH]; auto; cbn [repeat]; rewrite live_cons, IH; auto).
  constructor; cbn [cinit walk queue errs workers copied app length]; rewrite ?H, ?L, ?repeat_length; rewrite ?app_nil_r; auto; try lia; try discriminate.
  split; [intros x []|auto].
Qed.
Lemma inv_step fails files n s s' u g : inv fails files n s u g -> cstep fails s s' -> exists u' g', inv fails files n s' u' g'.
Proof.
  intros [F G C W L Q [E1 E2] K D R] T. inversion T; subst; cbn [walk queue errs workers copied] in *.
  - destruct K as (-> & K1 & K2). exists todo, g. constructor; cbn [walk queue errs workers copied]; auto.
    + rewrite F. rewrite <- (app_assoc q). cbn [app]. rewrite (app_assoc todo q), (app_assoc todo q). apply Permutation_middle.
    + rewrite app_length. cbn [length]. lia.
    + intros X. lia.
    + discriminate.
  - destruct K as (-> & K1 & K2). exists (f :: todo), g. constructor; cbn [walk queue errs workers copied]; auto.
    + split; [intros y I; apply E1; now right|cbn in E2; lia].
    + apply E1. now left.
    + discriminate.
  - destruct K as (-> & K1 & K2). exists [], g. constructor; cbn [walk queue errs workers copied]; auto. discriminate.
  - exists u, g. assert (LL : live (set_worker w i (Busy f)) = live w) by (rewrite live_set, (live_split w i Idle) by auto; reflexivity).
    constructor; cbn [walk queue errs workers copied]; auto; rewrite ?LL; auto.
    + rewrite F. apply Permutation_app_head. rewrite (hands_set w i (Busy f)), (hands_split w i Idle) by auto. cbn [hand app]. apply Permutation_middle.
    + erewrite set_worker_length; eauto.
    + cbn [length] in Q. lia.
    + intros X. specialize (D X). discriminate D.
    + intros r E. specialize (R r E). rewrite Forall_forall in R. specialize (R _ (nth_error_In _ _ H)). discriminate R.
  - exists u, g. assert (LL : live (set_worker w i Idle) = live w) by (rewrite live_set, (live_split w i (Busy f)) by auto; reflexivity).
    constructor; cbn [walk queue errs workers copied]; auto; rewrite ?LL; auto.
    + rewrite F. apply Permutation_app_head, Permutation_app_head. rewrite (hands_set w i Idle), (hands_split w i (Busy f)) by auto. cbn [hand app].
      rewrite !app_assoc. apply Permutation_middle.
    + erewrite set_worker_length; eauto.
    + intros r E. specialize (R r E). rewrite Forall_forall in R. specialize (R _ (nth_error_In _ _ H)). discriminate R.
  - exists u, (f :: g). assert (LL : S (live (set_worker w i Exited)) = live w) by (rewrite live_set, (live_split w i (Busy f)) by auto; reflexivity).
    constructor; cbn [walk queue errs workers copied length]; auto.
    + rewrite F. apply Permutation_app_head, Permutation_app_head. rewrite (hands_set w i Exited), (hands_split w i (Busy f)) by auto. cbn [hand app]. apply Permutation_middle.
    + erewrite set_worker_length; eauto.
    + lia.
    + split; [|rewrite app_length; cbn; lia]. apply incl_app; [now apply incl_tl|]. intros y [<-|[]]. now left.
    + destruct k as [t|[x|]|[x|]]; auto; [|now right..]. destruct K as (-> & K1 & K2). repeat split; auto; [lia|]. rewrite app_length. cbn. lia.
    + intros X. apply D. lia.
    + intros r E. specialize (R r E). rewrite Forall_forall in R. specialize (R _ (nth_error_In _ _ H)). discriminate R.
  - exists u, g. assert (LL : S (live (set_worker w i Exited)) = live w) by (rewrite live_set, (live_split w i Idle) by auto; reflexivity).
    constructor; cbn [walk queue errs workers copied]; auto.
    + rewrite F. apply Permutation_app_head. rewrite (hands_set w i Exited), (hands_split w i Idle) by auto. reflexivity.
    + erewrite set_worker_length; eauto.
    + lia.
    + discriminate.
  - exists u, g. constructor; cbn [walk queue errs workers copied]; auto.
Qed.
Lemma seen_inv fails files n s : seen fails files n s -> exists u g, inv fails files n s u g.
Proof. induction 1 as [|s s' _ (u & g & I) T]; [exists files, []; apply inv_init|]. eapply inv_step; eauto. Qed.

Lemma worker_cases (w : list worker) : (exists i f, nth_error w i = Some (Busy f)) \/ (exists i, nth_error w i = Some Idle) \/ Forall (fun x => x = Exited) w.
Proof.
  induction w as [|x w IH]; [auto|]. destruct x as [|f|]; [right; left; exists 0; auto|left; exists 0, f; auto|].
  destruct IH as [(i & f & E)|[(i & E)|A]]; [left; exists (S i), f; auto|right; left; exists (S i); auto|auto].
Qed.
Lemma live_none w : Forall (fun x => x = Exited) w -> live w = 0.
Proof. induction 1 as [|x w -> H IH]; auto. Qed.
Lemma live_busy w i f : nth_error w i = Some (Busy f) -> 0 < live w.
Proof. intros E. rewrite (live_split w i _ E). cbn. lia. Qed.

(** ** Theorems *)
(** Whatever the interleaving, the copy is never stuck: no worker waits for ever to report an
    error, and no send waits for ever on a full queue. *)
Theorem C67_no_deadlock :
  forall fails files n s, 0 < n -> seen fails files n s -> (exists r, returned s r) \/ exists s', cstep fails s s'.
Proof.
  intros fails files n s P H. destruct (seen_inv _ _ _ _ H) as (u & g & [F G C W L Q [E1 E2] K D R]). destruct s as [k q e w c]. cbn [walk queue errs workers copied] in *.
  destruct (worker_cases w) as [(i & f & N)|[(i & N)|A]].
  - right. destruct (fails f) eqn:X; eexists; [eapply st_failed|eapply st_copied]; eauto. assert (Z := live_busy w i f N). lia.
  - destruct q as [|f q]; [|right; eexists; eapply st_take; eauto].
    destruct k as [[|f t]|r|r]; [right; eexists; apply st_walked|right; eexists; apply st_send; cbn [length app]; unfold queue_cap; lia|right; eexists; eapply st_exit; eauto|left; exists r; reflexivity].
  - destruct k as [[|f t]|r|r]; [right; eexists; apply st_walked| |right; eexists; apply st_return; auto|left; exists r; reflexivity].
    destruct K as (_ & K1 & K2). rewrite (live_none w A) in K1. destruct e as [|x e]; [cbn in K2; lia|]. right. eexists. apply st_err.
Qed.
Print Assumptions C67_no_deadlock.

Definition weight (s : cstate) : nat :=
  match walk s with Walking t => 2 + 3 * length t | Closed _ => 1 | Returned _ => 0 end + 2 * length (queue s) + length (hands (workers s)) + live (workers s).
Lemma weight_step fails s s' : cstep fails s s' -> weight s' < weight s.
Proof.
  intros T. inversion T; subst; unfold weight; cbn [walk queue errs workers copied length]; rewrite ?app_length; cbn [length]; try lia.
  - assert (A := Permutation_length (hands_set w i (Busy f))). assert (B := Permutation_length (hands_split w i Idle H)). rewrite app_length in A, B. cbn in A, B.
    rewrite live_set, (live_split w i Idle) by auto. cbn [alive]. lia.
  - assert (A := Permutation_length (hands_set w i Idle)). assert (B := Permutation_length (hands_split w i (Busy f) H)). rewrite app_length in A, B. cbn in A, B.
    rewrite live_set, (live_split w i (Busy f)) by auto. cbn [alive]. lia.
  - assert (A := Permutation_length (hands_set w i Exited)). assert (B := Permutation_length (hands_split w i (Busy f) H)). rewrite app_length in A, B. cbn in A, B.
    rewrite live_set, (live_split w i (Busy f)) by auto. cbn [alive]. lia.
  - assert (A := Permutation_length (hands_set w i Exited)). assert (B := Permutation_length (hands_split w i Idle H)). rewrite app_length in A, B. cbn in A, B.
    rewrite live_set, (live_split w i Idle) by auto. cbn [alive]. lia.
Qed.
(** Nor does it run for ever. *)
Theorem C67_terminates :
  forall fails (run : nat -> cstate), ~ (forall i, cstep fails (run i) (run (S i))).
Proof.
  intros fails run H. assert (A : forall i, weight (run i) + i <= weight (run 0)) by (induction i; [lia|]; assert (X := weight_step _ _ _ (H i)); lia).
  specialize (A (S (weight (run 0)))). lia.
Qed.
Print Assumptions C67_terminates.
(** When it returns no worker is left: nothing is written afterwards. *)
Theorem C67_quiet :
  forall fails files n s r, seen fails files n s -> returned s r -> forall s', ~ cstep fails s s'.
Proof.
  intros fails files n s r H E s' T. destruct (seen_inv _ _ _ _ H) as (u & g & I). assert (A := i_returned _ _ _ _ _ _ I r E). rewrite Forall_forall in A.
  unfold returned in E. inversion T; subst; cbn in *; try discriminate E; specialize (A _ (nth_error_In _ _ H0)); discriminate A.
Qed.
Print Assumptions C67_quiet.
Lemma returned_hands fails files n s r u g : inv fails files n s u g -> returned s r -> hands (workers s) = [] /\ live (workers s) = 0.
Proof. intros I E. assert (A := i_returned _ _ _ _ _ _ I r E). split; [|now apply live_none]. induction A as [|x w -> A IH]; auto. Qed.
(** If no file fails, all are copied, once each, and no error is returned. *)
Theorem C67_success :
  forall fails files n s r, 0 < n -> (forall f, In f files -> fails f = false) -> seen fails files n s -> returned s r ->
    r = None /\ Permutation (copied s) files.
Proof.
  intros fails files n s r P NF H E. destruct (seen_inv _ _ _ _ H) as (u & g & I). destruct (returned_hands _ _ _ _ _ _ _ I E) as [HH LL].
  destruct I as [F G C W L Q [E1 E2] K D R]. unfold returned in E. rewrite E in K. rewrite HH in F. cbn in F.
  assert (g = []) as ->.
  { destruct g as [|x g]; auto. inversion G; subst. rewrite NF in H2; [discriminate|]. eapply Permutation_in; [symmetry; exact F|]. apply in_or_app; right. apply in_or_app; right. now left. }
  destruct r as [x|]; [destruct K|]. subst u. cbn in L. split; auto. rewrite D in F by (cbn; lia). now symmetry.
Qed.
Print Assumptions C67_success.
(** An error that is returned is that of a file that could not be copied. *)
Theorem C67_error :
  forall fails files n s x, seen fails files n s -> returned s (Some x) -> In x files /\ fails x = true.
Proof.
  intros fails files n s x H E. destruct (seen_inv _ _ _ _ H) as (u & g & [F G C W L Q [E1 E2] K D R]). unfold returned in E. rewrite E in K.
  split; [eapply Permutation_in; [symmetry; exact F|]; apply in_or_app; right; apply in_or_app; right; apply in_or_app; right; apply in_or_app; now left|].
  rewrite Forall_forall in G. auto.
Qed.
Print Assumptions C67_error.
(** What is lost when no error is returned although there was one: as long as fewer files fail
    than there are workers, only those; otherwise as many as the queue holds besides. *)
Theorem C67_no_error_partial :
  forall fails files n s, seen fails files n s -> returned s None ->
    (forall f, In f (copied s) -> In f files /\ fails f = false) /\
    (length (filter fails files) < n -> Permutation (copied s) (filter (fun f => negb (fails f)) files)) /\
    length files <= length (copied s) + n + queue_cap.
Proof.
  intros fails files n s H E. destruct (seen_inv _ _ _ _ H) as (u & g & I). destruct (returned_hands _ _ _ _ _ _ _ I E) as [HH LL].
  destruct I as [F G C W L Q [E1 E2] K D R]. unfold returned in E. rewrite E in K. subst u. rewrite HH in F. cbn [app] in F.
  split; [|split].
  - intros f I. rewrite Forall_forall in C. split; auto. eapply Permutation_in; [symmetry; exact F|]. apply in_or_app; right. apply in_or_app; now right.
  - intros Z. assert (FP : forall (p : fname -> bool) a b, Permutation a b -> Permutation (filter p a) (filter p b)).
    { intros p. induction 1; cbn; auto; [destruct (p x); auto|destruct (p x), (p y); auto; apply perm_swap|etransitivity; eauto]. }
    assert (FG : filter fails g = g) by (clear -G; induction G as [|x g X G IH]; auto; cbn; now rewrite X, IH).
    assert (Lg : length g <= length (filter fails files)).
    { rewrite (Permutation_length (FP fails _ _ F)), !filter_app, !app_length, FG. lia. }
    rewrite D in F by lia. cbn in F. rewrite (FP _ _ _ F), filter_app.
    assert (N1 : filter (fun f => negb (fails f)) g = []) by (clear -G; induction G as [|x g X G IH]; auto; cbn; now rewrite X).
    assert (N2 : filter (fun f => negb (fails f)) (copied s) = copied s) by (clear -C; induction C as [|x l X C IH]; auto; cbn; now rewrite X, IH).
    now rewrite N1, N2.
  - rewrite (Permutation_length F), !app_length. lia.
Qed.
Print Assumptions C67_no_error_partial.
(** The claim in general: no error means that all files were copied.  It fails: an error after
    the last file was sent is dropped. *)
Theorem C67_error_lost_refuted :
  ~ (forall fails files n s, 0 < n -> seen fails files n s -> returned s None -> forall f, In f files -> In f (copied s)).
Proof.
  intros H. set (fails := fun f : fname => f =? 1).
  specialize (H fails [0; 1] 2 {| walk := Returned None; queue := []; errs := [1]; workers := [Exited; Exited]; copied := [0] |}).
  cut (In 1 [0]); [intros [X|[]]; discriminate X|]. apply H; [lia| |reflexivity|cbn; auto]. clear H.
  assert (St : forall a b, seen fails [0; 1] 2 a -> cstep fails a b -> seen fails [0; 1] 2 b) by (intros; eapply seen_step; eauto).
  assert (A := seen_init fails [0; 1] 2). unfold cinit in A. cbn [repeat] in A.
  eapply St in A; [|apply st_send; cbn [length app]; unfold queue_cap; lia]. cbn [app] in A.
  eapply St in A; [|apply st_send; cbn [length app]; unfold queue_cap; lia]. cbn [app] in A.
  eapply St in A; [|apply (st_take _ 0); reflexivity]. cbn [set_worker firstn skipn app] in A.
  eapply St in A; [|apply (st_take _ 1); reflexivity]. cbn [set_worker firstn skipn app] in A.
  eapply St in A; [|apply (st_copied _ 0 _ 0); reflexivity]. cbn [set_worker firstn skipn app] in A.
  eapply St in A; [|apply (st_failed fails 1 _ 1); [reflexivity|reflexivity|cbn; lia]]. cbn [set_worker firstn skipn app] in A.
  eapply St in A; [|apply st_walked].
  eapply St in A; [|apply (st_exit _ 0); reflexivity]. cbn [set_worker firstn skipn app] in A.
  eapply St in A; [|apply st_return; repeat constructor]. exact A.
Qed.
Print Assumptions C67_error_lost_refuted.
(** With one worker, as xgo itself uses it, files are copied up to the first that fails. *)
Theorem C67_sequential :
  forall fails files,
    match copy_seq fails files with
    | (c, None) => c = files /\ forall f, In f files -> fails f = false
    | (c, Some x) => fails x = true /\ (forall f, In f c -> fails f = false) /\ exists rest, files = c ++ x :: rest
    end.
Proof.
  intros fails files. induction files as [|f files IH]; cbn; [split; auto; intros f []|]. destruct (fails f) eqn:E.
  - split; auto. split; [intros x []|]. now exists files.
  - destruct (copy_seq fails files) as [c [x|]].
    + destruct IH as (A & B & rest & ->). split; auto. split; [|now exists rest]. intros y [<-|I]; auto.
    + destruct IH as [-> A]. split; auto. intros y [<-|I]; auto.
Qed.
Print Assumptions C67_sequential.
(** Runs that end with all copied, and with an error. *)
Example C67_example :
  (exists s, seen (fun _ => false) [7; 8] 2 s /\ returned s None /\ copied s = [7; 8]) /\
  (exists s, seen (fun f => f =? 7) [7; 8] 2 s /\ returned s (Some 7)).
Proof.
  split.
  - assert (St : forall a b, seen (fun _ => false) [7; 8] 2 a -> cstep (fun _ => false) a b -> seen (fun _ => false) [7; 8] 2 b) by (intros; eapply seen_step; eauto).
    assert (A := seen_init (fun _ => false) [7; 8] 2). unfold cinit in A. cbn [repeat] in A.
    eapply St in A; [|apply st_send; cbn [length app]; unfold queue_cap; lia]. cbn [app] in A.
    eapply St in A; [|apply (st_take _ 1); reflexivity]. cbn [set_worker firstn skipn app] in A.
    eapply St in A; [|apply st_send; cbn [length app]; unfold queue_cap; lia]. cbn [app] in A.
    eapply St in A; [|apply (st_take _ 0); reflexivity]. cbn [set_worker firstn skipn app] in A.
    eapply St in A; [|apply (st_copied _ 0 _ 8); reflexivity]. cbn [set_worker firstn skipn app] in A.
    eapply St in A; [|apply st_walked].
    eapply St in A; [|apply (st_copied _ 1 _ 7); reflexivity]. cbn [set_worker firstn skipn app] in A.
    eapply St in A; [|apply (st_exit _ 0); reflexivity]. cbn [set_worker firstn skipn app] in A.
    eapply St in A; [|apply (st_exit _ 1); reflexivity]. cbn [set_worker firstn skipn app] in A.
    eapply St in A; [|apply st_return; repeat constructor]. eexists. split; [exact A|split; reflexivity].
  - set (fails := fun f : fname => f =? 7).
    assert (St : forall a b, seen fails [7; 8] 2 a -> cstep fails a b -> seen fails [7; 8] 2 b) by (intros; eapply seen_step; eauto).
    assert (A := seen_init fails [7; 8] 2). unfold cinit in A. cbn [repeat] in A.
    eapply St in A; [|apply st_send; cbn [length app]; unfold queue_cap; lia]. cbn [app] in A.
    eapply St in A; [|apply (st_take _ 1); reflexivity]. cbn [set_worker firstn skipn app] in A.
    eapply St in A; [|apply (st_failed fails 1 _ 7); [reflexivity|reflexivity|cbn; lia]]. cbn [set_worker firstn skipn app] in A.
    eapply St in A; [|apply st_err].
    eapply St in A; [|apply (st_exit _ 0); reflexivity]. cbn [set_worker firstn skipn app] in A.
    eapply St in A; [|apply st_return; repeat constructor]. eexists. split; [exact A|reflexivity].
Qed.
