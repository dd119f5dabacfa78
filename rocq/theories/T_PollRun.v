(** * A test run and the page that polls it (C120, C121) *)
From Coq Require Import Ascii String List Arith Bool Lia.
From Verif Require Import M_Str M_PollRun.
Import ListNotations.
Open Scope nat_scope.
Open Scope list_scope.
Global Opaque max_token.

(** Specification: an output as its lines and what follows the last newline; the lines among the
    events. *)
Definition no_nl (l : bytes) : Prop := ~ In nl l.
Definition unlines (ls : list bytes) : bytes := concat (map (fun l => l ++ [nl]) ls).
Definition output_of (out : bytes) (ls : list bytes) (rest : bytes) : Prop := out = unlines ls ++ rest /\ Forall no_nl ls /\ no_nl rest.
Fixpoint lines_of (es : list event) : list bytes := match es with [] => [] | Line m :: r => m :: lines_of r | _ :: r => lines_of r end.
Definition ends_of (es : list event) : nat := length (filter (fun e => match e with End => true | _ => false end) es).
Fixpoint errs_of (es : list event) : list bytes := match es with [] => [] | Err m :: r => m :: errs_of r | _ :: r => errs_of r end.
(** How a line is shown: without its last carriage return, if it ends in one. *)
Definition shown (l m : bytes) : Prop := l = m ++ [cr] \/ (m = l /\ forall r, l <> r ++ [cr]).
Lemma drop_shown l : shown l (drop_cr l).
Proof.
  unfold shown, drop_cr. destruct (rev l) as [|c r] eqn:E; apply (f_equal (@rev _)) in E; rewrite rev_involutive in E; subst l; [right; split; [reflexivity|intros r H; now destruct r]|]. cbn [rev].
  destruct (eqc c cr) eqn:C; [apply Ascii.eqb_eq in C; subst; now left|]. right. split; [reflexivity|]. intros x H. apply app_inj_tail in H as [_ H]. subst. discriminate C.
Qed.
Lemma drops_shown ls : Forall2 shown ls (map drop_cr ls).
Proof. induction ls; cbn; constructor; auto using drop_shown. Qed.
(** A line the scanner can hold. *)
Definition fits (l : bytes) : Prop := length l < 64 * 1024.
Lemma max_is : max_token = 64 * 1024. Proof. reflexivity. Qed.

Lemma lines_app a b : lines_of (a ++ b) = lines_of a ++ lines_of b.
Proof. induction a as [|[m|m|] a IH]; cbn; congruence. Qed.
Lemma errs_app a b : errs_of (a ++ b) = errs_of a ++ errs_of b.
Proof. induction a as [|[m|m|] a IH]; cbn; congruence. Qed.
Lemma ends_app a b : ends_of (a ++ b) = ends_of a + ends_of b.
Proof. unfold ends_of. rewrite filter_app, app_length. reflexivity. Qed.
Lemma unlines_app a b : unlines (a ++ b) = unlines a ++ unlines b.
Proof. unfold unlines. rewrite map_app, concat_app. reflexivity. Qed.
Lemma nl_split l b l' b' : no_nl l -> no_nl l' -> l ++ nl :: b = l' ++ nl :: b' -> l = l' /\ b = b'.
Proof.
  revert l'. induction l as [|c l IH]; intros [|c' l'] N N' E; cbn in E.
  - injection E as E. auto.
  - injection E as <- _. exfalso. apply N'. now left.
  - injection E as -> _. exfalso. apply N. now left.
  - injection E as <- E. apply IH in E as [-> ->]; auto; intros ?H; [apply N|apply N']; now right.
Qed.
(** the lines sent are the first ones *)
Lemma lines_prefix sent : forall ls rest tail, Forall no_nl sent -> Forall no_nl ls -> no_nl rest -> unlines ls ++ rest = unlines sent ++ tail ->
  exists more, ls = sent ++ more /\ tail = unlines more ++ rest.
Proof.
  induction sent as [|l sent IH]; intros ls rest tail S L R E.
  - exists ls. auto.
  - inversion S as [|? ? Nl Ns]; subst. cbn in E. rewrite <- !app_assoc in E. cbn in E. destruct ls as [|l' ls].
    + cbn in E. exfalso. apply R. rewrite E. rewrite in_app_iff. right. now left.
    + inversion L as [|? ? Nl' Nls]; subst. cbn in E. rewrite <- !app_assoc in E. cbn in E. apply nl_split in E as [-> E]; auto.
      apply IH in E as (more & -> & ->); auto. exists more. auto.
Qed.

Section Poll.
  Variable err : option bytes.
  (** Every event sent: received or in the channel. *)
  Definition sent (s : state) : list event := got s ++ queue s.
  Definition inv (chunks : list bytes) (s : state) : Prop :=
    (exists ls, Forall no_nl ls /\ Forall fits ls /\ lines_of (sent s) = map drop_cr ls /\ concat chunks = unlines ls ++ buf s ++ cur s ++ concat (todo s))
    /\ length (buf s) <= max_token /\ length (queue s) <= channel_size
    /\ (alive s = false -> no_nl (buf s) /\ length (buf s) = max_token)
    /\ match ph s with
       | Running => ends_of (sent s) = 0 /\ errs_of (sent s) = []
       | Failing => ends_of (sent s) = 0 /\ errs_of (sent s) = [] /\ cur s = [] /\ todo s = [] /\ err <> None
       | Ending => ends_of (sent s) = 0 /\ errs_of (sent s) = (match err with Some e => [lit "err: " ++ e] | None => [] end) /\ cur s = [] /\ todo s = []
       | Over => ends_of (sent s) = 1 /\ errs_of (sent s) = (match err with Some e => [lit "err: " ++ e] | None => [] end) /\ cur s = [] /\ todo s = []
       end.
  Lemma inv_start chunks : inv chunks (start chunks).
  Proof. unfold inv, start, sent. cbn. split; [exists []; cbn; auto|]. repeat split; auto using Nat.le_0_l; try lia; discriminate. Qed.
  Lemma inv_step chunks s s' : inv chunks s -> step err s s' -> inv chunks s'.
  Proof.
    intros ((ls & N & F & L & C) & B & Q & A & P) S. unfold inv. destruct S; unfold sent in *; cbn [todo cur buf alive ph queue got] in *.
    - split; [exists ls; repeat split; auto|]. split; [auto|]. split; [auto|]. split; [auto|]. destruct q; intuition discriminate.
    - split; [exists ls; repeat split; auto; rewrite C, <- !app_assoc; reflexivity|]. split; [auto|]. split; [auto|]. split; [discriminate|].
      destruct q; auto; [destruct P as (? & ? & E & ?)|destruct P as (? & ? & E & ?)|destruct P as (? & ? & E & ?)]; apply app_eq_nil in E as [-> _]; congruence.
    - split; [exists ls; auto|]. split; [auto|]. split; [auto|]. split; [|auto]. intros _. split; [auto|lia].
    - split.
      { exists (ls ++ [l]). repeat split.
        - apply Forall_app. auto.
        - apply Forall_app. split; [auto|]. constructor; [|auto]. unfold fits. rewrite <- max_is. rewrite app_length in B. cbn [length] in B. lia.
        - rewrite app_assoc, lines_app, L, map_app. reflexivity.
        - rewrite C, unlines_app. unfold unlines at 3. cbn. rewrite app_nil_r, <- !app_assoc. reflexivity. }
      split; [rewrite app_length in B; cbn [length] in B; lia|]. split; [rewrite app_length; cbn [length]; lia|]. split; [discriminate|].
      rewrite app_assoc, ends_app, errs_app. cbn. rewrite Nat.add_0_r, app_nil_r. exact P.
    - split; [exists ls; auto|]. split; [auto|]. split; [auto|]. split; [auto|]. destruct err; destruct P; repeat split; auto; discriminate.
    - split; [exists ls; repeat split; auto; rewrite app_assoc, lines_app, L; cbn; now rewrite app_nil_r|]. split; [auto|]. split; [rewrite app_length; cbn [length]; lia|]. split; [auto|].
      rewrite app_assoc, ends_app, errs_app, H. destruct P as (-> & -> & -> & -> & _). auto.
    - split; [exists ls; repeat split; auto; rewrite app_assoc, lines_app, L; cbn; now rewrite app_nil_r|]. split; [auto|]. split; [rewrite app_length; cbn [length]; lia|]. split; [auto|].
      rewrite app_assoc, ends_app, errs_app. destruct P as (-> & -> & -> & ->). cbn. rewrite app_nil_r. auto.
    - rewrite <- app_assoc. cbn [app]. split; [exists ls; auto|]. split; [auto|]. split; [cbn [length] in Q; lia|]. auto.
  Qed.
  Lemma reach_inv chunks s : reach err chunks s -> inv chunks s.
  Proof. induction 1; [apply inv_start|eapply inv_step; eauto]. Qed.

  (** ** C120 *)
  (** What a page receives, whatever the schedule: the first lines of the output, in their order,
      none twice and none made up; at most one end; the error of the run and no other, and it
      before the end. *)
  Theorem C120_received_in_order (chunks : list bytes) (ls : list bytes) (rest : bytes) (s : state) : output_of (concat chunks) ls rest -> reach err chunks s ->
    exists n ms, Forall2 shown ls ms /\ lines_of (got s) = firstn n ms.
  Proof.
    intros (E & NL & NR) R. apply reach_inv in R as ((sl & N & F & L & C) & _). rewrite E in C. symmetry in C. symmetry in C. apply lines_prefix in C as (more & -> & _); auto.
    unfold sent in L. rewrite lines_app in L. exists (length (lines_of (got s))), (map drop_cr (sl ++ more)). split; [apply drops_shown|]. rewrite map_app, <- L, <- app_assoc, firstn_app, Nat.sub_diag, firstn_all. cbn. now rewrite app_nil_r.
  Qed.
  Theorem C120_end_at_most_once (chunks : list bytes) (s : state) : reach err chunks s ->
    ends_of (got s) <= 1 /\ (exists n, errs_of (got s) = firstn n (match err with Some e => [lit "err: " ++ e] | None => [] end)).
  Proof.
    intros R. apply reach_inv in R as (_ & _ & _ & _ & P). unfold sent in P. rewrite ends_app, errs_app in P.
    assert (E : ends_of (got s) + ends_of (queue s) <= 1) by (destruct (ph s); lia). split; [lia|].
    assert (X : exists y, errs_of (got s) ++ y = [] \/ errs_of (got s) ++ y = match err with Some e => [lit "err: " ++ e] | None => [] end).
    { exists (errs_of (queue s)). destruct (ph s); intuition. }
    destruct X as (y & [X|X]).
    - apply app_eq_nil in X as [-> _]. now exists 0.
    - exists (length (errs_of (got s))). replace (match err with Some e => [lit "err: " ++ e] | None => [] end) with (errs_of (got s) ++ y). rewrite firstn_app, Nat.sub_diag, firstn_all. cbn. now rewrite app_nil_r.
  Qed.

  (** *** The run ends *)
  Definition weight (s : state) : nat :=
    3 * length (concat (todo s)) + length (todo s) + 3 * length (cur s) + (if alive s then 1 else 0) + 2 * length (buf s) + length (queue s)
    + match ph s with Running => 5 | Failing => 4 | Ending => 2 | Over => 0 end.
  Lemma weight_step s s' : step err s s' -> weight s' < weight s.
  Proof.
    destruct 1; unfold weight; cbn [todo cur buf alive ph queue got]; cbn [concat length]; rewrite ?app_length; cbn [length]; try lia.
    - destruct x; [congruence|]. cbn [length]. lia.
    - destruct err; lia.
  Qed.
  (** Every run is finite: no schedule goes on for ever. *)
  Theorem C121_finite (s : state) : Acc (fun s' s => step err s s') s.
  Proof.
    remember (weight s) as n eqn:E. revert s E. induction n as [n IH] using (well_founded_induction lt_wf). intros s ->. constructor. intros s' S. apply (IH (weight s')); auto. now apply weight_step.
  Qed.
  Lemma has_nl (b : bytes) : no_nl b \/ exists l r, b = l ++ nl :: r /\ no_nl l.
  Proof.
    induction b as [|c b IH]; [left; intros []|]. destruct (ascii_dec c nl) as [-> |N]; [right; exists [], b; split; auto; intros []|].
    destruct IH as [H|(l & r & -> & H)]; [left; intros [X|X]; auto|]. right. exists (c :: l), r. split; [auto|]. intros [X|X]; auto.
  Qed.
  Lemma room s : queue s = [] -> length (queue s) < channel_size. Proof. intros ->. cbn. unfold channel_size. lia. Qed.
  (** And when nothing more happens, every line that ends in a newline has been received, the error
      of the run if any, and the end once: if no line is longer than a Scanner takes. *)
  Theorem C121_all_received_partial (chunks ls : list bytes) (rest : bytes) (s : state) :
    output_of (concat chunks) ls rest -> Forall fits ls -> fits rest -> reach err chunks s -> (forall s', ~ step err s s') ->
    Forall2 shown ls (lines_of (got s)) /\ ends_of (got s) = 1 /\ errs_of (got s) = match err with Some e => [lit "err: " ++ e] | None => [] end.
  Proof.
    intros (E & NL & NR) FL FR R Z. apply reach_inv in R as ((sl & N & F & L & C) & B & Q & A & P).
    destruct s as [t c b a q qu g]. unfold sent in *. cbn [todo cur buf alive ph queue got] in *.
    destruct qu as [|e qu]; [|exfalso; eapply Z, s_poll]. rewrite app_nil_r in *.
    rewrite E in C. apply lines_prefix in C as (more & -> & C); auto. rewrite Forall_app in FL. destruct FL as [_ FM]. rewrite Forall_app in NL. destruct NL as [_ NM].
    assert (HL : forall l r, b = l ++ r -> no_nl l -> length l < max_token).
    { intros l r -> Nl. rewrite max_is. destruct more as [|m more].
      - cbn in C. rewrite <- C in FR. unfold fits in FR. rewrite !app_length in FR. lia.
      - cbn in C. rewrite <- !app_assoc in C. cbn in C. inversion FM as [|? ? Fm _]; subst. inversion NM as [|? ? Nm _]; subst. unfold fits in Fm.
        destruct (Nat.le_gt_cases (length l) (length m)) as [H|H]; [lia|]. exfalso. apply Nl.
        assert (X : nth_error (l ++ r ++ c ++ concat t) (length m) = Some nl) by (rewrite C, nth_error_app2, Nat.sub_diag by lia; reflexivity).
        rewrite nth_error_app1 in X by lia. eapply nth_error_In, X. }
    destruct a.
    2:{ destruct (A eq_refl) as [X Y]. exfalso. specialize (HL b [] (eq_sym (app_nil_r b)) X). lia. }
    destruct (has_nl b) as [X|(l & r & -> & X)]; [|exfalso; eapply Z, s_line; [exact X|unfold channel_size; cbn; lia]].
    pose proof (HL b [] (eq_sym (app_nil_r b)) X) as Y.
    destruct c as [|x c]; [|exfalso; apply (Z {| todo := t; cur := c; buf := b ++ [x]; alive := true; ph := q; queue := []; got := g |}); apply (s_read err t [x] c); [discriminate|exact X|rewrite app_length; cbn [length]; lia]].
    destruct t as [|c t]; [|exfalso; eapply Z, s_write].
    cbn [concat app] in C. rewrite app_nil_r in C.
    destruct q.
    - exfalso. eapply Z, s_exit.
    - exfalso. destruct P as (_ & _ & _ & _ & P). destruct err as [e|] eqn:EE; [|congruence]. eapply Z, s_fail; [reflexivity|unfold channel_size; cbn; lia].
    - exfalso. eapply Z, s_end. unfold channel_size; cbn; lia.
    - destruct P as (P1 & P2 & _). split; [|auto]. destruct more as [|m more]; [rewrite app_nil_r, L; apply drops_shown|].
      exfalso. apply X. rewrite C. cbn. rewrite !in_app_iff. left. left. right. now left.
  Qed.

  (** *** What is missing *)
  (** A line too long for the Scanner, with anything after it: the end is never sent (and the
      command never finishes), in any schedule. *)
  Theorem C121_long_line_refuted (chunks ls : list bytes) (l rest : bytes) (s : state) :
    concat chunks = unlines ls ++ l ++ rest -> Forall no_nl ls -> no_nl l -> length l = 64 * 1024 -> rest <> [] -> reach err chunks s ->
    ends_of (got s) = 0 /\ ph s = Running.
  Proof.
    intros E NL Nl Len NR R. apply reach_inv in R as ((sl & N & F & L & C) & B & Q & A & P).
    assert (H : cur s = [] -> todo s = [] -> False).
    { intros Ec Et. rewrite Ec, Et in C. cbn in C. rewrite app_nil_r in C. rewrite E in C. clear - NL Nl Len NR N F B C. pose proof max_is as M.
      revert sl N F C. induction ls as [|x ls IH]; intros sl N F C.
      - destruct sl as [|y sl]; cbn in C.
        + subst. rewrite <- C in B. rewrite app_length in B. destruct rest; [congruence|]. cbn [length] in B. rewrite M in B. lia.
        + inversion N as [|? ? Ny _]; subst. inversion F as [|? ? Fy _]; subst. unfold fits in Fy. rewrite <- !app_assoc in C. cbn in C.
          apply Nl. assert (X : nth_error (l ++ rest) (length y) = Some nl) by (rewrite C, nth_error_app2, Nat.sub_diag by lia; reflexivity). rewrite nth_error_app1 in X by (rewrite Len; exact Fy). eapply nth_error_In, X.
      - inversion NL as [|? ? Nx Nls]; subst. destruct sl as [|y sl]; cbn in C; rewrite <- !app_assoc in C; cbn in C.
        + rewrite <- C in B. rewrite !app_length in B. cbn [length] in B. rewrite !app_length in B. destruct rest; [congruence|]. cbn [length] in B. rewrite M in B. lia.
        + inversion N as [|? ? Ny Nsl]; subst. inversion F as [|? ? Fy Fsl]; subst. apply nl_split in C as [-> C]; auto. apply (IH Nls sl Nsl Fsl). exact C. }
    unfold sent in P. rewrite ends_app in P. destruct (ph s); intuition lia.
  Qed.
  (** The last line of an output that does not end in a newline is never received. *)
  Theorem C121_last_line_refuted (chunks : list bytes) (s : state) : no_nl (concat chunks) -> reach err chunks s -> lines_of (got s) = [].
  Proof.
    intros N R. destruct (C120_received_in_order chunks [] (concat chunks) s) as (n & ms & F & H); auto; [repeat split; auto|]. inversion F; subst. rewrite H. now destruct n.
  Qed.
End Poll.
(** The end may come before lines: a page that stops at the end misses them. *)
Theorem C121_end_before_line_refuted (l : bytes) : no_nl l -> fits l ->
  exists s s', reach None [l ++ [nl]] s /\ got s = [End] /\ reach None [l ++ [nl]] s' /\ exists m, shown l m /\ got s' = [End; Line m].
Proof.
  intros N F. assert (L : length ([] ++ (l ++ [nl])) <= max_token) by (rewrite app_nil_l, app_length; cbn [length]; rewrite max_is; unfold fits in F; lia).
  assert (NE : l ++ [nl] <> []) by (clear; destruct l; discriminate).
  set (c := l ++ [nl]) in *.
  assert (R1 : reach None [c] {| todo := []; cur := c; buf := []; alive := true; ph := Running; queue := []; got := [] |}) by (eapply r_step; [apply r_start|apply s_write]).
  assert (R2 : reach None [c] {| todo := []; cur := []; buf := c; alive := true; ph := Running; queue := []; got := [] |}).
  { eapply r_step; [exact R1|]. rewrite <- (app_nil_r c) at 1. apply (s_read None [] c [] Running []); [exact NE|intros []|exact L]. }
  assert (R3 : reach None [c] {| todo := []; cur := []; buf := c; alive := true; ph := Ending; queue := []; got := [] |}) by (eapply r_step; [exact R2|apply (s_exit None)]).
  assert (R4 : reach None [c] {| todo := []; cur := []; buf := c; alive := true; ph := Over; queue := [End]; got := [] |}) by (eapply r_step; [exact R3|apply (s_end None [] [] c true []); unfold channel_size; cbn; lia]).
  assert (R5 : reach None [c] {| todo := []; cur := []; buf := c; alive := true; ph := Over; queue := []; got := [End] |}) by (eapply r_step; [exact R4|apply (s_poll None [] [] c true Over End [] [])]).
  assert (R6 : reach None [c] {| todo := []; cur := []; buf := []; alive := true; ph := Over; queue := [Line (drop_cr l)]; got := [End] |}) by (eapply r_step; [exact R5|apply (s_line None [] [] Over l [] []); [exact N|unfold channel_size; cbn; lia]]).
  assert (R7 : reach None [c] {| todo := []; cur := []; buf := []; alive := true; ph := Over; queue := []; got := [End; Line (drop_cr l)] |}) by (eapply r_step; [exact R6|apply (s_poll None [] [] [] true Over _ [] [End])]).
  eexists _, _. split; [exact R5|]. split; [reflexivity|]. split; [exact R7|]. exists (drop_cr l). split; [apply drop_shown|reflexivity].
Qed.
(** Non-vacuity: an output of two writes, cut in the middle of a line, and its lines. *)
Example C120_ex : output_of (concat [lit "=== RUN"; [cr; nl] ++ lit "ok" ++ [nl]; lit "PA"]) [lit "=== RUN" ++ [cr]; lit "ok"] (lit "PA")
  /\ Forall fits [lit "=== RUN" ++ [cr]; lit "ok"] /\ Forall2 shown [lit "=== RUN" ++ [cr]; lit "ok"] [lit "=== RUN"; lit "ok"].
Proof.
  split; [|split; [|exact (drops_shown [lit "=== RUN" ++ [cr]; lit "ok"])]].
  - split; [reflexivity|]. split; [repeat constructor|]; vm_compute; intuition discriminate.
  - apply Forall_cons; [|apply Forall_cons; [|apply Forall_nil]]; unfold fits; cbn [length lit list_ascii_of_string app]; lia.
Qed.
Print Assumptions C120_received_in_order. Print Assumptions C120_end_at_most_once. Print Assumptions C121_finite. Print Assumptions C121_all_received_partial.
Print Assumptions C121_long_line_refuted. Print Assumptions C121_last_line_refuted. Print Assumptions C121_end_before_line_refuted.
