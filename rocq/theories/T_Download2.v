(** * Installing is atomic under crashes and concurrent calls (C102) *)
From Coq Require Import Ascii String List Arith Bool Lia.
From Verif Require Import M_Str M_Download.
Import ListNotations.
Open Scope nat_scope.
Open Scope list_scope.

Lemma nth_set {A} (l : list A) k x y j : nth_error l k = Some y ->
  nth_error (firstn k l ++ x :: skipn (S k) l) j = if j =? k then Some x else nth_error l j.
Proof.
  revert k j; induction l as [|a l IH]; intros [|k] j H; cbn in H; try discriminate.
  - destruct j; reflexivity.
  - destruct j; [reflexivity|]. exact (IH k j H).
Qed.
(** ** Specification *)
Definition complete (n : nat) (t : tree) : Prop := t_pieces t = seq 0 n.
Definition start (d : place_state) (file : platform -> list nat) : state := {| s_dest := d; s_file := file; s_procs := [] |}.
Definition returned (s : state) (k : nat) (ok : bool) : Prop :=
  exists p, nth_error (s_procs s) k = Some p /\ pr_pc p = PReturned ok.

Definition ok_pc (n : nat) (d : place_state) (c : pc) : Prop :=
  match c with
  | PExtract i tmp => tmp = seq 0 i /\ i <= n
  | PRename tmp => tmp = seq 0 n
  | PReturned true => exists t, d = Dir t
  | _ => True
  end.
Record inv (n : nat) (d0 : place_state) (s : state) : Prop := {
  i_procs : forall k p, nth_error (s_procs s) k = Some p -> ok_pc n (s_dest s) (pr_pc p);
  i_dest : s_dest s = d0 \/ (d0 = Absent /\ exists t, s_dest s = Dir t /\ complete n t /\ exists k p, nth_error (s_procs s) k = Some p /\ pr_platform p = t_platform t)
}.
Lemma nth_lt {A} (l : list A) k x : nth_error l k = Some x -> k < length l.
Proof. intros H. apply nth_error_Some. congruence. Qed.
Lemma inv_set n d0 s k p c d : inv n d0 s -> nth_error (s_procs s) k = Some p -> ok_pc n d c ->
  (d = s_dest s \/ (s_dest s = Absent /\ d = Dir {| t_platform := pr_platform p; t_pieces := seq 0 n |})) ->
  forall file, inv n d0 {| s_dest := d; s_file := file; s_procs := firstn k (s_procs s) ++ {| pr_platform := pr_platform p; pr_pc := c |} :: skipn (S k) (s_procs s) |}.
Proof.
  intros [I1 I2] K O D file. constructor; cbn [s_dest s_procs].
  - intros j q H. rewrite (nth_set _ _ _ p) in H by auto. destruct (j =? k) eqn:E.
    + injection H as <-. exact O.
    + specialize (I1 _ _ H). destruct (pr_pc q) as [| | | | | |[|]|]; auto. destruct I1 as [t T].
      destruct D as [-> |[A _]]; [now exists t|congruence].
  - destruct D as [-> |[A ->]].
    + destruct I2 as [I2|(A & t & T & C & j & q & H & P)]; [auto|]. right. split; auto. exists t. split; auto. split; auto.
      destruct (j =? k) eqn:E.
      * apply Nat.eqb_eq in E. subst. exists k. eexists. rewrite (nth_set _ _ _ p) by auto. rewrite Nat.eqb_refl. split; [reflexivity|]. cbn. congruence.
      * exists j, q. rewrite (nth_set _ _ _ p) by auto. rewrite E. auto.
    + destruct I2 as [I2|(_ & t & T & _)]; [|congruence]. right. split; [congruence|]. eexists. split; [reflexivity|]. split; [reflexivity|].
      exists k. eexists. rewrite (nth_set _ _ _ p) by auto. rewrite Nat.eqb_refl. split; [reflexivity|reflexivity].
Qed.
Lemma inv_step n answer d0 s t : inv n d0 s -> step n answer s t -> inv n d0 t.
Proof.
  intros I S. destruct S as [k p t K A|plat].
  - pose proof (i_procs _ _ _ I _ _ K) as O. assert (G : forall c, c = pr_pc p -> ok_pc n (s_dest s) c) by now intros ? ->.
    destruct A; (refine (inv_set n d0 s k p _ _ I K _ _ _); [|auto; fail]) || refine (inv_set n d0 s k p _ _ I K _ _ _); cbn in O |- *; auto; eauto.
    + split; [reflexivity|lia].
    + destruct O as [-> L]. split; [|lia]. symmetry; exact (seq_S i 0).
    + destruct O as [-> L]. f_equal. lia.
    + subst tmp. auto.
  - destruct I as [I1 I2]. constructor; cbn [s_dest s_procs].
    + intros k p H. destruct (le_lt_dec (length (s_procs s)) k) as [L|L].
      * rewrite nth_error_app2 in H by lia. destruct (k - length (s_procs s)) as [|[|]]; [injection H as <-; exact Logic.I|discriminate|discriminate].
      * rewrite nth_error_app1 in H by lia. eauto.
    + destruct I2 as [I2|(A & t & T & C & j & q & H & P)]; [auto|]. right. split; auto. exists t. repeat split; auto. exists j, q. split; auto.
      rewrite nth_error_app1; auto. now apply nth_lt in H.
Qed.
Lemma inv_run n answer d0 s t : inv n d0 s -> run n answer s t -> inv n d0 t.
Proof. intros I R. induction R; auto. apply IHR. eapply inv_step; eauto. Qed.
Lemma inv_start n d0 file : inv n d0 (start d0 file).
Proof. constructor; cbn; [intros [|k] p H; discriminate H|auto]. Qed.

(** Whatever calls are made, killed and interleaved, what is at the place of the SDK is what
    was there before, or nothing was there and it is a complete SDK, made by one of the calls. *)
Theorem C102_all_or_nothing (n : nat) (answer : listing) (d0 : place_state) (file : platform -> list nat) (s : state) :
  run n answer (start d0 file) s ->
  s_dest s = d0 \/ (d0 = Absent /\ exists t, s_dest s = Dir t /\ complete n t /\ exists k p, nth_error (s_procs s) k = Some p /\ pr_platform p = t_platform t).
Proof. intros R. eapply i_dest, inv_run; eauto using inv_start. Qed.
(** and it is never changed again. *)
Theorem C102_installed_stays (n : nat) (answer : listing) (s t : state) (d : place_state) :
  s_dest s = d -> d <> Absent -> run n answer s t -> s_dest t = d.
Proof.
  intros E N R. induction R as [|s t u S R IH]; auto. apply IH. clear IH R. destruct S as [k p t K A|]; auto.
  destruct A; cbn; try congruence.
Qed.
(** a call that returns without an error leaves an SDK there, for good; a complete one, unless
    something else was there before the calls. *)
Theorem C102_returned (n : nat) (answer : listing) (d0 : place_state) (file : platform -> list nat) (s t : state) (k : nat) :
  run n answer (start d0 file) s -> returned s k true -> run n answer s t ->
  exists tr, s_dest s = Dir tr /\ s_dest t = Dir tr /\ (d0 = Dir tr \/ complete n tr).
Proof.
  intros R (p & K & P) R'. pose proof (inv_run _ _ _ _ _ (inv_start n d0 file) R) as I.
  pose proof (i_procs _ _ _ I _ _ K) as O. rewrite P in O. destruct O as [tr T]. exists tr. split; auto. split.
  - eapply C102_installed_stays; eauto. discriminate.
  - destruct (i_dest _ _ _ I) as [D|(_ & t' & T' & C & _)]; [left; congruence|]. right. congruence.
Qed.
(** the platform is right if all calls are for the same one... *)
Theorem C102_platform_partial (n : nat) (answer : listing) (file : platform -> list nat) (s : state) (k : nat) (plat : platform) :
  run n answer (start Absent file) s -> returned s k true -> Forall (fun p => pr_platform p = plat) (s_procs s) ->
  exists tr, s_dest s = Dir tr /\ complete n tr /\ t_platform tr = plat.
Proof.
  intros R Rt F. destruct (C102_returned _ _ _ _ _ _ _ R Rt (run_nil _ _ _)) as (tr & T & _ & D).
  destruct (C102_all_or_nothing _ _ _ _ _ R) as [X|(_ & t & T' & C & j & p & J & P)]; [congruence|].
  exists t. repeat split; auto. rewrite Forall_forall in F. apply nth_error_In in J. specialize (F _ J). congruence.
Qed.

(** ** One call alone *)
Definition at_ (s : state) (k : nat) (plat : platform) (c : pc) : Prop := nth_error (s_procs s) k = Some {| pr_platform := plat; pr_pc := c |}.
Lemma at_set s k plat c c' d f : at_ s k plat c ->
  at_ (set_pc {| s_dest := d; s_file := f; s_procs := s_procs s |} k {| pr_platform := plat; pr_pc := c |} c') k plat c'.
Proof. intros A. unfold at_, set_pc. cbn [s_procs pr_platform]. rewrite (nth_set _ _ _ _ k A), Nat.eqb_refl. reflexivity. Qed.
Lemma run_app n answer s t u : run n answer s t -> run n answer t u -> run n answer s u.
Proof. intros R. induction R; auto. intros. econstructor; eauto. Qed.
Definition others (s t : state) (k : nat) : Prop := forall j, j <> k -> nth_error (s_procs t) j = nth_error (s_procs s) j.
Lemma others_set s k plat c c' d f : at_ s k plat c ->
  others s (set_pc {| s_dest := d; s_file := f; s_procs := s_procs s |} k {| pr_platform := plat; pr_pc := c |} c') k.
Proof. intros A j N. unfold set_pc. cbn [s_procs]. rewrite (nth_set _ _ _ _ j A). apply Nat.eqb_neq in N. now rewrite N. Qed.
Lemma others_trans s t u k : others s t k -> others t u k -> others s u k.
Proof. intros A B j N. rewrite B, A; auto. Qed.
Lemma go_get n answer k plat : forall m i s, at_ s k plat (PGet i) -> i + m = n -> s_dest s = Absent -> (forall j, j < i -> In j (s_file s plat)) ->
  exists t, run n answer s t /\ at_ t k plat (PGet n) /\ s_dest t = Absent /\ (forall j, j < n -> In j (s_file t plat)) /\ others s t k.
Proof.
  induction m as [|m IH]; intros i s A E D F.
  - assert (i = n) by lia. subst i. clear E. exists s. split; [constructor|]. split; [exact A|]. split; [exact D|]. split; [exact F|]. intros ? _; reflexivity.
  - set (s' := set_pc (set_file s plat (i :: s_file s plat)) k {| pr_platform := plat; pr_pc := PGet i |} (PGet (S i))).
    destruct (IH (S i) s') as (t & R & X1 & X2 & X3 & X4).
    + apply (at_set s k plat (PGet i)). exact A.
    + lia.
    + exact D.
    + intros j L. unfold s'. cbn. rewrite Nat.eqb_refl. cbn. destruct (Nat.eq_dec i j); auto. right. apply F. lia.
    + exists t. split; [|split; [exact X1|split; [exact X2|split; [exact X3|]]]].
      * econstructor; [|exact R]. econstructor; [exact A|]. cbn. apply (a_write n answer s k {| pr_platform := plat; pr_pc := PGet i |}). lia.
      * eapply others_trans; [|exact X4]. exact (others_set s k plat _ _ _ _ A).
Qed.
Lemma go_extract n answer k plat : forall m i s, at_ s k plat (PExtract i (seq 0 i)) -> i + m = n -> s_dest s = Absent -> (forall j, j < n -> In j (s_file s plat)) ->
  exists t, run n answer s t /\ at_ t k plat (PExtract n (seq 0 n)) /\ s_dest t = Absent /\ others s t k.
Proof.
  induction m as [|m IH]; intros i s A E D F.
  - assert (i = n) by lia. subst i. clear E. exists s. split; [constructor|]. split; [exact A|]. split; [exact D|]. intros ? _; reflexivity.
  - set (s' := set_pc s k {| pr_platform := plat; pr_pc := PExtract i (seq 0 i) |} (PExtract (S i) (seq 0 i ++ [i]))).
    destruct (IH (S i) s') as (t & R & X1 & X2 & X3).
    + rewrite seq_S. destruct s. exact (at_set _ k plat _ _ _ _ A).
    + lia.
    + exact D.
    + exact F.
    + exists t. split; [|split; [exact X1|split; [exact X2|]]].
      * econstructor; [|exact R]. econstructor; [exact A|]. cbn.
        apply (a_unpack n answer s k {| pr_platform := plat; pr_pc := PExtract i (seq 0 i) |}); [lia|]. cbn. apply F. lia.
      * eapply others_trans; [|exact X3]. destruct s. exact (others_set _ k plat _ _ _ _ A).
Qed.
Lemma go_rename n answer s k plat : at_ s k plat PStat -> s_dest s = Absent -> answer <> Listed false ->
  exists t, run n answer s t /\ at_ t k plat (PRename (seq 0 n)) /\ s_dest t = Absent /\ others s t k.
Proof.
  intros A0 D NA.
  set (s1 := set_pc s k {| pr_platform := plat; pr_pc := PStat |} PList).
  assert (A1 : at_ s1 k plat PList) by (destruct s; exact (at_set _ k plat _ _ _ _ A0)).
  assert (O1 : others s s1 k) by (destruct s; exact (others_set _ k plat _ _ _ _ A0)).
  set (s2 := set_pc s1 k {| pr_platform := plat; pr_pc := PList |} PGetOpen).
  assert (A2 : at_ s2 k plat PGetOpen) by exact (at_set s1 k plat _ _ _ _ A1).
  assert (O2 : others s1 s2 k) by exact (others_set s1 k plat _ _ _ _ A1).
  set (s3 := set_pc (set_file s2 plat []) k {| pr_platform := plat; pr_pc := PGetOpen |} (PGet 0)).
  assert (A3 : at_ s3 k plat (PGet 0)) by exact (at_set s2 k plat _ _ _ _ A2).
  assert (O3 : others s2 s3 k) by exact (others_set s2 k plat _ _ _ _ A2).
  destruct (go_get n answer k plat n 0 s3 A3) as (s4 & R4 & A4 & D4 & F4 & O4); [reflexivity|exact D|lia|].
  set (s5 := set_pc s4 k {| pr_platform := plat; pr_pc := PGet n |} (PExtract 0 [])).
  assert (A5 : at_ s5 k plat (PExtract 0 (seq 0 0))) by (destruct s4; exact (at_set _ k plat _ _ _ _ A4)).
  assert (O5 : others s4 s5 k) by (destruct s4; exact (others_set _ k plat _ _ _ _ A4)).
  destruct (go_extract n answer k plat n 0 s5 A5) as (s6 & R6 & A6 & D6 & O6); [reflexivity|exact D4|exact F4|].
  set (s7 := set_pc s6 k {| pr_platform := plat; pr_pc := PExtract n (seq 0 n) |} (PRename (seq 0 n))).
  assert (A7 : at_ s7 k plat (PRename (seq 0 n))) by (destruct s6; exact (at_set _ k plat _ _ _ _ A6)).
  assert (O7 : others s6 s7 k) by (destruct s6; exact (others_set _ k plat _ _ _ _ A6)).
  exists s7. split; [|split; [exact A7|split; [exact D6|]]].
  - econstructor; [econstructor; [exact A0|apply a_absent; exact D]|].
    econstructor; [econstructor; [exact A1|apply a_listed; exact NA]|].
    econstructor; [econstructor; [exact A2|apply (a_open n answer s2 k {| pr_platform := plat; pr_pc := PGetOpen |})]|].
    eapply run_app; [exact R4|]. econstructor; [econstructor; [exact A4|apply (a_written n answer s4 k {| pr_platform := plat; pr_pc := PGet n |} n); lia]|].
    eapply run_app; [exact R6|]. econstructor; [econstructor; [exact A6|apply (a_unpacked n answer s6 k {| pr_platform := plat; pr_pc := PExtract n (seq 0 n) |} n); lia]|]. constructor.
  - repeat (eapply others_trans; [eassumption|]). intros j _. reflexivity.
Qed.
Lemma do_rename n answer s k plat : at_ s k plat (PRename (seq 0 n)) -> s_dest s = Absent ->
  exists t, step n answer s t /\ at_ t k plat (PReturned true) /\ s_dest t = Dir {| t_platform := plat; t_pieces := seq 0 n |} /\ others s t k.
Proof.
  intros A D. eexists. split; [|split; [|split]].
  - econstructor; [exact A|]. apply (a_rename n answer s k {| pr_platform := plat; pr_pc := PRename (seq 0 n) |}). exact D.
  - exact (at_set s k plat _ _ _ _ A).
  - reflexivity.
  - exact (others_set s k plat _ _ _ _ A).
Qed.
(** Nothing that was left behind is in the way: in every state, whatever half-fetched files
    the killed calls left and whatever other calls are doing, a new call for a version that
    is not known to be missing can go on, alone, until it returns without an error, and the
    SDK is then there. *)
Theorem C102_can_install (n : nat) (answer : listing) (s : state) (plat : platform) :
  s_dest s <> RegularFile -> answer <> Listed false ->
  exists t k, run n answer s t /\ returned t k true /\ length (s_procs s) = k /\
    exists tr, s_dest t = Dir tr /\ (s_dest s = Dir tr \/ (s_dest s = Absent /\ complete n tr /\ t_platform tr = plat)).
Proof.
  intros NF NA. set (k := length (s_procs s)). set (s0 := {| s_dest := s_dest s; s_file := s_file s; s_procs := s_procs s ++ [{| pr_platform := plat; pr_pc := PStat |}] |}).
  assert (C : step n answer s s0) by apply step_call.
  assert (A0 : at_ s0 k plat PStat). { unfold at_, s0, k. cbn [s_procs]. rewrite nth_error_app2, Nat.sub_diag by lia. reflexivity. }
  destruct (s_dest s) as [| |t] eqn:D; [|congruence|].
  - destruct (go_rename n answer s0 k plat A0) as (t & R & A & Dt & _); [reflexivity|exact NA|].
    destruct (do_rename n answer t k plat A Dt) as (u & S & Au & Du & _). exists u, k. split; [|split; [|split]].
    + econstructor; [exact C|]. eapply run_app; [exact R|]. econstructor; [exact S|constructor].
    + eexists. split; [exact Au|reflexivity].
    + reflexivity.
    + eexists. split; [exact Du|]. right. repeat split.
  - exists (set_pc s0 k {| pr_platform := plat; pr_pc := PStat |} (PReturned true)), k. split; [|split; [|split]].
    + econstructor; [exact C|]. econstructor; [econstructor; [exact A0|apply (a_installed n answer s0 k _ t); reflexivity]|]. constructor.
    + eexists. split; [exact (at_set s0 k plat _ _ _ _ A0)|reflexivity].
    + reflexivity.
    + exists t. split; [reflexivity|auto].
Qed.
(** ** A version that the list does not have is not installed, and nothing is fetched *)
Lemma unlisted_step n s t : Forall (fun p => pr_pc p = PStat \/ pr_pc p = PList \/ pr_pc p = PKilled \/ exists ok, pr_pc p = PReturned ok) (s_procs s) ->
  step n (Listed false) s t ->
  s_dest t = s_dest s /\ s_file t = s_file s /\ Forall (fun p => pr_pc p = PStat \/ pr_pc p = PList \/ pr_pc p = PKilled \/ exists ok, pr_pc p = PReturned ok) (s_procs t).
Proof.
  intros F S.
  assert (G : forall k p c, nth_error (s_procs s) k = Some p -> (c = PStat \/ c = PList \/ c = PKilled \/ exists ok, c = PReturned ok) ->
     Forall (fun p => pr_pc p = PStat \/ pr_pc p = PList \/ pr_pc p = PKilled \/ exists ok, pr_pc p = PReturned ok) (s_procs (set_pc s k p c))).
  { intros k p c K C. cbn [set_pc s_procs]. rewrite <- (firstn_skipn k) in F. apply Forall_app in F as [F1 F2]. apply Forall_app. split; auto.
    constructor; auto. apply Forall_forall. intros x I. rewrite Forall_forall in F2. apply F2.
    clear -I. revert k I; induction (s_procs s) as [|a l IH]; intros [|k] I; cbn in *; auto. }
  destruct S as [k p t K A|plat].
  - pose proof F as F0. rewrite Forall_forall in F. pose proof (F _ (nth_error_In _ _ K)) as P.
    destruct A; try (exfalso; destruct P as [P|[P|[P|[? P]]]]; discriminate P); try (split; [reflexivity|split; [reflexivity|apply G; eauto 10]]; fail).
    congruence.
  - split; [reflexivity|split; [reflexivity|]]. cbn. apply Forall_app. auto.
Qed.
Theorem C102_unlisted (n : nat) (d0 : place_state) (file : platform -> list nat) (s : state) (k : nat) :
  run n (Listed false) (start d0 file) s ->
  s_dest s = d0 /\ s_file s = file /\ (returned s k true -> exists t, d0 = Dir t).
Proof.
  intros R. assert (H : s_dest s = d0 /\ s_file s = file).
  { assert (G : forall a b, run n (Listed false) a b -> Forall (fun p => pr_pc p = PStat \/ pr_pc p = PList \/ pr_pc p = PKilled \/ exists ok, pr_pc p = PReturned ok) (s_procs a) -> s_dest b = s_dest a /\ s_file b = s_file a).
    { intros a b Rab. induction Rab as [|a b c Sab Rbc IH]; auto. intros F. destruct (unlisted_step _ _ _ F Sab) as (A & B & F'). destruct (IH F'). split; congruence. }
    destruct (G _ _ R); auto. constructor. }
  destruct H as [A B]. repeat split; auto. intros Rt. destruct (C102_returned _ _ _ _ _ _ _ R Rt (run_nil _ _ _)) as (t & T & _). exists t. congruence.
Qed.
(** ** What does not hold *)
Definition active (s : state) (k : nat) : Prop := exists p, nth_error (s_procs s) k = Some p /\ pr_pc p <> PKilled /\ forall ok, pr_pc p <> PReturned ok.
Lemma taken_stays n answer k s t : run n answer s t ->
  (exists p, nth_error (s_procs s) k = Some p /\ ((exists tmp, pr_pc p = PRename tmp) \/ pr_pc p = PReturned false \/ pr_pc p = PKilled)) -> s_dest s <> Absent ->
  ~ returned t k true.
Proof.
  intros R. induction R as [|s t u S R IH]; intros (p & K & P) D.
  - intros (q & Q & E). destruct P as [[? P]|[P|P]]; congruence.
  - apply IH; clear IH R.
    + destruct S as [j q t J A|plat].
      * assert (G : forall c, (j = k -> (exists tmp, c = PRename tmp) \/ c = PReturned false \/ c = PKilled) -> forall d f,
            exists p, nth_error (s_procs (set_pc {| s_dest := d; s_file := f; s_procs := s_procs s |} j q c)) k = Some p
              /\ ((exists tmp, pr_pc p = PRename tmp) \/ pr_pc p = PReturned false \/ pr_pc p = PKilled)).
        { intros c C d f. unfold set_pc. cbn [s_procs]. destruct (Nat.eq_dec k j) as [->|N].
          - eexists. rewrite (nth_set _ _ _ _ j J), Nat.eqb_refl. split; [reflexivity|]. cbn. auto.
          - exists p. rewrite (nth_set _ _ _ _ k J). apply Nat.eqb_neq in N. rewrite N. auto. }
        assert (H : j = k -> (exists tmp, pr_pc q = PRename tmp) \/ pr_pc q = PReturned false \/ pr_pc q = PKilled) by (intros ->; assert (q = p) as -> by congruence; exact P).
        destruct s as [sd sf sp]. destruct A; apply G; intros Z; specialize (H Z); auto; try congruence;
          destruct H as [[? H]|[H|H]]; discriminate H.
      * exists p. cbn [s_procs]. rewrite nth_error_app1; auto. now apply nth_lt in K.
    + destruct S as [j q t J A|plat]; auto. destruct A; cbn; congruence.
Qed.
(** two calls at once for the same version and platform: the SDK is installed, and the
    second call goes on and can only fail, whatever happens; *)
Theorem C102_concurrent_refuted (n : nat) (answer : listing) (file : platform -> list nat) (plat : platform) :
  answer <> Listed false ->
  exists s tr, run n answer (start Absent file) s /\ returned s 0 true /\ active s 1 /\ s_dest s = Dir tr /\ complete n tr /\ t_platform tr = plat
    /\ forall t, run n answer s t -> ~ returned t 1 true.
Proof.
  intros NA. set (s0 := {| s_dest := Absent; s_file := file; s_procs := [{| pr_platform := plat; pr_pc := PStat |}; {| pr_platform := plat; pr_pc := PStat |}] |}).
  assert (R0 : run n answer (start Absent file) s0).
  { apply (run_cons _ _ _ {| s_dest := Absent; s_file := file; s_procs := [{| pr_platform := plat; pr_pc := PStat |}] |}); [apply (step_call _ _ (start Absent file) plat)|].
    eapply run_cons; [apply (step_call _ _ _ plat)|]. constructor. }
  destruct (go_rename n answer s0 0 plat) as (s1 & R1 & A1 & D1 & O1); [reflexivity|reflexivity|exact NA|].
  assert (B1 : at_ s1 1 plat PStat) by (unfold at_; now rewrite O1).
  destruct (go_rename n answer s1 1 plat B1 D1 NA) as (s2 & R2 & A2 & D2 & O2).
  assert (B2 : at_ s2 0 plat (PRename (seq 0 n))) by (unfold at_; now rewrite O2).
  destruct (do_rename n answer s2 0 plat B2 D2) as (s3 & S3 & A3 & D3 & O3).
  assert (B3 : at_ s3 1 plat (PRename (seq 0 n))) by (unfold at_; now rewrite O3).
  exists s3, {| t_platform := plat; t_pieces := seq 0 n |}. split; [|split; [|split; [|split; [exact D3|split; [reflexivity|split; [reflexivity|]]]]]].
  - eapply run_app; [exact R0|]. eapply run_app; [exact R1|]. eapply run_app; [exact R2|]. econstructor; [exact S3|constructor].
  - eexists. split; [exact A3|reflexivity].
  - eexists. split; [exact B3|]. split; discriminate.
  - intros t R. eapply taken_stays; [exact R| |congruence]. eexists. split; [exact B3|]. left. exists (seq 0 n). reflexivity.
Qed.
(** the directory does not say for which platform it is: a call for another platform returns
    the SDK of the first. *)
Theorem C102_platform_refuted (n : nat) (answer : listing) (file : platform -> list nat) (asked other : platform) :
  asked <> other -> answer <> Listed false ->
  exists s tr k p, run n answer (start Absent file) s /\ nth_error (s_procs s) k = Some p /\ pr_platform p = asked /\ pr_pc p = PReturned true
    /\ s_dest s = Dir tr /\ t_platform tr <> asked.
Proof.
  intros N NA. destruct (C102_can_install n answer (start Absent file) other) as (s & _ & R & _ & _ & tr & T & [X|(_ & _ & P)]); [discriminate|auto|discriminate X|].
  set (s' := {| s_dest := s_dest s; s_file := s_file s; s_procs := s_procs s ++ [{| pr_platform := asked; pr_pc := PStat |}] |}).
  assert (A : at_ s' (length (s_procs s)) asked PStat). { unfold at_, s'. cbn [s_procs]. rewrite nth_error_app2, Nat.sub_diag by lia. reflexivity. }
  eexists. exists tr. exists (length (s_procs s)). eexists. split; [|split; [exact (at_set s' _ asked _ (PReturned true) (s_dest s) (s_file s) A)|]].
  - eapply run_app; [exact R|]. eapply run_cons; [apply (step_call _ _ _ asked)|]. eapply run_cons; [|constructor].
    econstructor; [exact A|]. apply (a_installed n answer s' _ _ tr). exact T.
  - repeat split; auto. congruence.
Qed.
Example C102_nontrivial : exists s, run 3 (Listed true) (start Absent (fun _ => [1; 7])) s /\ returned s 0 true /\ s_dest s = Dir {| t_platform := 5; t_pieces := [0; 1; 2] |}.
Proof.
  destruct (C102_can_install 3 (Listed true) (start Absent (fun _ => [1; 7])) 5) as (s & k & R & Rt & <- & [pl pi] & T & [X|(_ & C & P)]); try discriminate.
  exists s. split; auto. split; auto. rewrite T. cbn in P. unfold complete in C. cbn in C. now subst.
Qed.
