(** * Runs of the test explorer: what arrives, what blocks (C87) *)
From Coq Require Import Ascii String List Arith Bool Lia.
From Verif Require Import M_Str M_Explorer M_ExplorerRun M_Session T_ExplorerRun M_ExplorerLive T_ExplorerLive.
Import ListNotations.
Open Scope nat_scope. Open Scope list_scope.

(** ** Specification *)
(** After the lines before, output that the reader of stdout does not take: a line that is too long, or one that the builder
    refuses with more than a buffer after it. *)
Definition refused {S E} (build : S -> bytes -> outcome S E) (s : S) (tail : bytes) : Prop :=
  (exists long more, tail = long ++ more /\ length long = max_token /\ ~ In newline long /\ more <> []) \/
  (exists bad more e, tail = bad ++ newline :: more /\ ~ In newline bad /\ short bad /\ max_token < length more /\ build s (drop_cr bad) = Bad e).

(** ** Proofs: blocked runs *)
Section Blocked.
Variables S E : Type.
Variable build : S -> bytes -> outcome S E.
Variable final : S -> list E -> Prop.
Variable P : E -> Prop.
Hypothesis PB : forall s l s' es, build s l = Built s' es -> Forall P es.
Hypothesis PX : forall s l e, build s l = Bad e -> P e.
Variables (pre : list bytes) (tail : bytes) (s0 s1 : S) (es : list E).
Hypothesis T : Forall (fun l => ~ In newline l) pre.
Hypothesis R : runs build s0 (map drop_cr pre) s1 es.
Hypothesis B : refused build s1 tail.
Definition stuck (s : sys S E) : Prop :=
  match s with
  | Dead => False
  | Live x => x_run x = Running /\ length (c_buf x) <= max_token /\
      match c_phase x with
      | Scanning => exists dn todo es', pre = dn ++ todo /\ c_buf x ++ x_out x = written todo tail /\ runs build s0 (map drop_cr dn) (c_state x) es'
      | Waiting => max_token < length (c_buf x ++ x_out x)
      | Ending => False
      end /\ Forall P (mains (x_got x ++ x_chan x ++ c_queue x)) /\ mains (d_queue x) = []
  end.
Lemma tail_long : max_token < length tail.
Proof. destruct B as [(long & more & -> & L & _ & N)|(bad & more & e & -> & _ & _ & L & _)]; rewrite app_length; [destruct more; [congruence|cbn; lia]|cbn; lia]. Qed.
Lemma written_long todo : max_token < length (written todo tail).
Proof. pose proof tail_long. unfold written. rewrite app_length. lia. Qed.
Lemma P_mains (l : list E) : Forall P l -> Forall P (mains (map Main l)).
Proof. now rewrite mains_main. Qed.
Lemma stuck_step a b : step S E build final a b -> stuck a -> stuck b.
Proof.
  intros St I. destruct St; cbn in I; destruct I as (Rn & Lb & C & Pm & Dq).
  - destruct H as (Ph & Q & N). rewrite Ph in C. destruct C as (dn & td & es' & L & W & Rx). unfold stuck; fields. rewrite Q in Pm. repeat (split; auto). rewrite app_length, firstn_length; lia.
    exists dn, td, es'. rewrite <- app_assoc, firstn_skipn. auto.
  - rewrite H in C. destruct C as (dn & td & es' & L & W & Rx). rewrite H0 in Pm. pose proof (cut_newline _ _ _ H1) as [Eb Nl].
    assert (Lr : length rest <= max_token) by (rewrite Eb, app_length in Lb; cbn in Lb; lia).
    destruct td as [|l td].
    + rewrite app_nil_r in L. subst dn. destruct (runs_det _ _ _ _ _ _ _ R _ _ Rx) as [X1 _].
      destruct B as [(long & more & -> & Ll & Nn & Nm)|(bad & more & e & -> & Nb & _ & Lm & Be)].
      * exfalso. unfold written in W. cbn in W. apply Nn. assert (Q : firstn (length (c_buf x)) (c_buf x ++ x_out x) = firstn (length (c_buf x)) (long ++ more)) by now rewrite W.
        rewrite firstn_app, Nat.sub_diag, firstn_all, firstn_O, app_nil_r in Q. rewrite firstn_app in Q. replace (length (c_buf x) - length long) with 0 in Q by lia. rewrite firstn_O, app_nil_r in Q.
        assert (J : In newline (firstn (length (c_buf x)) long)). { rewrite <- Q, Eb. apply in_or_app. right. now left. }
        rewrite <- (firstn_skipn (length (c_buf x)) long). apply in_or_app. now left.
      * unfold written in W. cbn in W. rewrite Eb, <- app_assoc in W. cbn in W. destruct (newline_unique _ _ _ _ Nl Nb W) as [-> Wm]. unfold took. rewrite <- X1, Be. unfold stuck; fields.
        repeat (split; auto); [now rewrite Wm|]. rewrite app_nil_r in Pm. rewrite app_assoc, mains_app. apply Forall_app. split; auto. cbn. constructor; eauto.
    + rewrite written_cons in W. assert (Nx : ~ In newline l). { pose proof T as Tx. rewrite L in Tx. apply Forall_app in Tx as [_ Tx]. now inversion Tx. }
      rewrite Eb, <- app_assoc in W. cbn in W. destruct (newline_unique _ _ _ _ Nl Nx W) as [-> W2].
      assert (Lm : map drop_cr pre = map drop_cr dn ++ drop_cr l :: map drop_cr td) by (rewrite L, map_app; reflexivity).
      destruct (runs_prefix _ _ _ _ _ _ _ R _ _ _ Lm _ _ Rx) as (s' & e' & Bs). unfold took. rewrite Bs. unfold stuck; fields. repeat (split; auto).
      * exists (dn ++ [l]), td, (es' ++ e'). rewrite <- app_assoc. split; auto. split; auto. rewrite map_app. econstructor; eauto.
      * rewrite app_nil_r in Pm. rewrite app_assoc, mains_app. apply Forall_app. split; auto. apply P_mains. eauto.
  - exfalso. congruence.
  - exfalso. congruence.
  - destruct H as (Ph & Q & N). rewrite Ph in C. destruct C as (dn & td & es' & L & W & Rx). unfold stuck; fields. rewrite Q in Pm. repeat (split; auto). rewrite W. apply written_long.
  - unfold stuck; fields. repeat (split; auto). rewrite H in Pm. rewrite <- (app_assoc (x_chan x)). exact Pm.
  - exfalso. rewrite H0, app_nil_r in C. destruct (c_phase x); [|lia|tauto]. destruct C as (dn & td & es' & L & W & Rx). pose proof (written_long td). rewrite <- W in H2. lia.
  - exfalso. congruence.
  - unfold stuck; fields. repeat (split; auto).
  - unfold stuck; fields. repeat (split; auto).
  - unfold stuck; fields. repeat (split; auto).
  - unfold stuck; fields. rewrite H in Dq. cbn in Dq. apply app_eq_nil in Dq as [Dm Dq]. repeat (split; auto). rewrite !mains_app in *. cbn. rewrite Dm, !app_nil_r. exact Pm.
  - unfold stuck; fields. repeat (split; auto). rewrite H in Pm. rewrite <- (app_assoc (x_got x)). exact Pm.
Qed.
Lemma stuck_steps a b : steps S E build final a b -> stuck a -> stuck b.
Proof. induction 1; auto. intros I. eapply stuck_step; eauto. Qed.
Lemma stuck_start single first err : Forall P first -> stuck (Live (started S E single s0 first (written pre tail) err)).
Proof.
  intros F. unfold stuck, started; fields. repeat (split; auto); [cbn; lia| |].
  - exists [], pre, []. repeat split; auto. constructor.
  - change (Forall P (mains (map Main first ++ []))). rewrite app_nil_r. now apply P_mains.
Qed.
End Blocked.

(** ** Proofs: an execution in which stderr comes late *)
Section Late.
Variables S E : Type.
Variable build : S -> bytes -> outcome S E.
Variable final : S -> list E -> Prop.
Notation steps := (steps S E build final).
Lemma steps_trans a b c : steps a b -> steps b c -> steps a c.
Proof. intros A C. revert A. induction C as [s|u v w H1 IH H2]; intros A; [exact A|]. eapply steps_next; [apply IH; exact A|exact H2]. Qed.
Lemma steps_one a b : step S E build final a b -> steps a b.
Proof. intros X. econstructor; [constructor|exact X]. Qed.
Lemma drain_chan : forall r x, x_chan x = r -> exists y, steps (Live x) (Live y) /\ y = {| x_out := x_out x; x_err := x_err x; x_run := x_run x; c_phase := c_phase x; c_buf := c_buf x; c_state := c_state x; c_queue := c_queue x;
       d_phase := d_phase x; d_buf := d_buf x; d_queue := d_queue x; x_chan := []; x_got := x_got x ++ r |}.
Proof.
  induction r as [|m r IH]; intros x Q.
  - exists x. split; [constructor|]. rewrite app_nil_r. destruct x; cbn in *; now subst.
  - destruct (IH {| x_out := x_out x; x_err := x_err x; x_run := x_run x; c_phase := c_phase x; c_buf := c_buf x; c_state := c_state x; c_queue := c_queue x;
       d_phase := d_phase x; d_buf := d_buf x; d_queue := d_queue x; x_chan := r; x_got := x_got x ++ [m] |} eq_refl) as (y & St & ->). eexists. split; [|reflexivity].
    eapply steps_trans; [apply steps_one; eapply s_recv; eauto|]. fields. cbn in St. rewrite <- app_assoc in St. exact St.
Qed.
Lemma drain_queue : forall q x, c_queue x = q -> x_chan x = [] -> exists y, steps (Live x) (Live y) /\ y = {| x_out := x_out x; x_err := x_err x; x_run := x_run x; c_phase := c_phase x; c_buf := c_buf x; c_state := c_state x; c_queue := [];
       d_phase := d_phase x; d_buf := d_buf x; d_queue := d_queue x; x_chan := []; x_got := x_got x ++ q |}.
Proof.
  induction q as [|m q IH]; intros x Q C.
  - exists x. split; [constructor|]. rewrite app_nil_r. destruct x; cbn in *; now subst.
  - destruct (IH {| x_out := x_out x; x_err := x_err x; x_run := x_run x; c_phase := c_phase x; c_buf := c_buf x; c_state := c_state x; c_queue := q;
       d_phase := d_phase x; d_buf := d_buf x; d_queue := d_queue x; x_chan := []; x_got := x_got x ++ [m] |} eq_refl eq_refl) as (y & St & ->). eexists. split; [|reflexivity].
    eapply steps_trans; [apply steps_one; eapply s_send; eauto; rewrite C; apply capacity_pos|]. eapply steps_trans; [apply steps_one; eapply (s_recv _ _ _ _ _ m []); fields; now rewrite C|]. fields. cbn in St. rewrite <- app_assoc in St. exact St.
Qed.
Lemma late s first es line : final s es -> ~ In newline line -> short line -> exists x y, steps (Live (started S E false s first [] (written [line] []))) (Live x) /\ x_got x = map Main (first ++ es) /\
  steps (Live x) (Live y) /\ x_got y = x_got x ++ [Plain (drop_cr line)].
Proof.
  intros F N Sh. assert (W : written [line] [] = line ++ [newline]) by (unfold written; cbn; now rewrite !app_nil_r). rewrite W. clear W.
  destruct (drain_chan (map Main first) (started S E false s first [] (line ++ [newline])) eq_refl) as (x1 & St1 & E1). unfold started in E1. cbn in E1.
  assert (St2 : steps (Live x1) (Live (with_d S E x1 Reading (line ++ [newline]) [] [] []))).
  { apply steps_one. assert (X := s_dread S E build final x1 (length line + 1)). rewrite E1 in X |- *. cbn [d_buf x_err x_chan d_phase d_queue] in X.
    replace (length line + 1) with (length (line ++ [newline])) in X by (rewrite app_length; cbn; lia). rewrite firstn_all, skipn_all in X. apply X; auto; rewrite app_length; cbn; unfold short in Sh; lia. }
  set (x2 := with_d S E x1 Reading (line ++ [newline]) [] [] []) in *.
  assert (St3 : steps (Live x2) (Live (with_c S E x2 Scanning [] [] [] [] Closed))).
  { apply steps_one. assert (X := s_ended S E build final x2). unfold x2, with_c, with_d in X |- *. rewrite E1 in X |- *. cbn in X |- *. apply X; auto. }
  set (x3 := with_c S E x2 Scanning [] [] [] [] Closed) in *.
  assert (St4 : steps (Live x3) (Live (with_c S E x3 Waiting [] [] [] [] Closed))).
  { apply steps_one. assert (X := s_eof S E build final x3). unfold x3, x2, with_c, with_d in X |- *. cbn in X |- *. apply X; auto; try discriminate. repeat split; auto. }
  set (x4 := with_c S E x3 Waiting [] [] [] [] Closed) in *.
  assert (St5 : steps (Live x4) (Live (with_c S E x4 Ending [] (map Main es) [] [] Reported))).
  { apply steps_one. assert (X := s_reported S E build final x4 es). unfold x4, x3, x2, with_c, with_d in X |- *. cbn in X |- *. apply X; auto. rewrite E1. exact F. }
  set (x5 := with_c S E x4 Ending [] (map Main es) [] [] Reported) in *.
  destruct (drain_queue (map Main es) x5 eq_refl eq_refl) as (x6 & St6 & E6).
  assert (G6 : x_got x6 = map Main (first ++ es)). { rewrite E6. cbn. rewrite E1. cbn. now rewrite map_app. }
  assert (St7 : steps (Live x6) (Live (with_d S E x6 Reading [] [Plain (drop_cr line)] [] []))).
  { apply steps_one. assert (X := s_dline S E build final x6 line []). rewrite E6 in X |- *. unfold x5, x4, x3, x2, with_c, with_d in X |- *. cbn [d_buf x_err x_chan d_phase d_queue x_out x_run c_phase c_buf c_state c_queue x_got] in X |- *. apply X; auto. now apply M_Str.cut_first_some. }
  set (x7 := with_d S E x6 Reading [] [Plain (drop_cr line)] [] []) in *.
  assert (St8 : steps (Live x7) (Live (with_d S E x7 Reading [] [] [] [Plain (drop_cr line)]))).
  { apply steps_one. assert (X := s_dsend S E build final x7 (Plain (drop_cr line)) [] eq_refl capacity_pos). exact X. }
  exists x6. eexists. split; [|split; [exact G6|split]].
  - eapply steps_trans; [exact St1|]. eapply steps_trans; [exact St2|]. eapply steps_trans; [exact St3|]. eapply steps_trans; [exact St4|]. eapply steps_trans; [exact St5|exact St6].
  - eapply steps_trans; [exact St7|]. eapply steps_trans; [exact St8|]. apply steps_one. eapply (s_recv _ _ _ _ _ (Plain (drop_cr line)) []). reflexivity.
  - reflexivity.
Qed.
End Late.

(** ** C87 *)
(** A line is given as written, without the CR before its newline. *)
Theorem C87_lines_as_written l : (forall m, l = m ++ ["013"%char] -> drop_cr l = m) /\ ((forall m, l <> m ++ ["013"%char]) -> drop_cr l = l).
Proof.
  unfold drop_cr. split.
  - intros m ->. rewrite rev_app_distr. cbn. apply rev_involutive.
  - intros N. destruct (rev l) as [|c r] eqn:R; [reflexivity|]. destruct (ascii_dec c "013"%char) as [->|Nc].
    + exfalso. apply (N (rev r)). rewrite <- (rev_involutive l), R. reflexivity.
    + destruct c as [[] [] [] [] [] [] [] []]; try reflexivity. congruence.
Qed.
