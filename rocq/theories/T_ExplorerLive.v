(** * A run of the test explorer ends and all its events arrive (C87) *)
From Coq Require Import Ascii String List Arith Bool Lia.
From Verif Require Import M_Str M_Explorer M_ExplorerRun M_Session M_ExplorerLive.
Import ListNotations.
Open Scope nat_scope. Open Scope list_scope.

(** ** Specification *)
(** Bytes written: lines, and what follows the last newline. *)
Definition written (ls : list bytes) (last : bytes) : bytes := flat_map (fun l => l ++ [newline]) ls ++ last.
Definition text (ls : list bytes) (last : bytes) : Prop := Forall (fun l => ~ In newline l) ls /\ ~ In newline last.
Definition short (l : bytes) : Prop := length l < max_token.
(** The lines a reader sees: without CR; the last one needs no newline. *)
Definition lines_of (ls : list bytes) (last : bytes) : list bytes := map drop_cr (ls ++ match last with [] => [] | _ => [last] end).
Section Spec.
Variables S E : Type.
Variable build : S -> bytes -> outcome S E.
(** The builder accepts all lines, one after the other. *)
Inductive runs : S -> list bytes -> S -> list E -> Prop :=
| runs_nil s : runs s [] s []
| runs_snoc s ls s1 es l s2 es2 : runs s ls s1 es -> build s1 l = Built s2 es2 -> runs s (ls ++ [l]) s2 (es ++ es2).
Definition mains (l : list (message E)) : list E := flat_map (fun m => match m with Main e => [e] | Plain _ => [] end) l.
Definition plains (l : list (message E)) : list bytes := flat_map (fun m => match m with Main _ => [] | Plain b => [b] end) l.
End Spec.
Arguments mains {E}. Arguments plains {E}. Arguments runs {S E}.

Lemma capacity_pos : 0 < capacity. Proof. unfold capacity. lia. Qed.
Lemma short_small l : length l < 1000 -> short l. Proof. unfold short, max_token. lia. Qed.
Global Opaque max_token capacity.

(** ** Proofs *)
Lemma newline_unique a : forall b x y, ~ In newline a -> ~ In newline b -> a ++ newline :: x = b ++ newline :: y -> a = b /\ x = y.
Proof.
  induction a as [|c a IH]; intros [|d b] x y Na Nb Q; cbn in Q.
  - injection Q as <-. auto.
  - injection Q as Q1 Q2. destruct Nb. now left.
  - injection Q as Q1 Q2. destruct Na. now left.
  - injection Q as -> Q. destruct (IH b x y) as [-> ->]; auto. intros J; apply Na; now right. intros J; apply Nb; now right.
Qed.
Lemma cut_newline b line rest : cut_first newline b = Some (line, rest) -> b = line ++ newline :: rest /\ ~ In newline line.
Proof.
  revert line. induction b as [|c b IH]; intros line Q; cbn in Q; [discriminate|]. destruct (eqc c newline) eqn:Ec.
  - injection Q as <- <-. apply Ascii.eqb_eq in Ec. subst. cbn. auto.
  - destruct (cut_first newline b) as [[h t]|] eqn:Eb; [|discriminate]. injection Q as <- <-. destruct (IH h eq_refl) as [-> N]. split; [reflexivity|].
    intros [J|J]; [|auto]. subst c. unfold eqc in Ec. rewrite Ascii.eqb_refl in Ec. discriminate.
Qed.
Lemma cut_newline_some b : In newline b -> exists line rest, cut_first newline b = Some (line, rest).
Proof.
  induction b as [|c b IH]; [intros []|]. intros J. cbn. destruct (eqc c newline) eqn:Ec; [eauto|]. destruct J as [->|J]; [unfold eqc in Ec; rewrite Ascii.eqb_refl in Ec; discriminate|].
  destruct (IH J) as (h & t & ->). eauto.
Qed.
Lemma in_newline_dec b : {In newline b} + {~ In newline b}.
Proof. apply in_dec, ascii_dec. Qed.

(** *** No run goes on for ever *)
Section Ends.
Variables S E : Type.
Variable build : S -> bytes -> outcome S E.
Variable final : S -> list E -> Prop.
Notation live := (live S E).
Notation sys := (sys S E).
Notation step := (step S E build final).
Definition cw (p : cphase) : nat := match p with Scanning => 2 | Waiting => 1 | Ending => 0 end.
Definition rw (p : rphase) : nat := match p with Running => 2 | Closed => 1 | Reported => 0 end.
Definition dw (p : dphase) : nat := match p with Reading => 1 | _ => 0 end.
Definition work (x : live) : nat := 2 * length (x_out x) + length (c_buf x) + cw (c_phase x) + rw (x_run x) + 2 * length (x_err x) + length (d_buf x) + dw (d_phase x).
Definition load_ (x : live) : nat := 2 * length (c_queue x) + 2 * length (d_queue x) + length (x_chan x).
Lemma cut_shorter b line rest : cut_first newline b = Some (line, rest) -> length rest < length b.
Proof. intros C. apply cut_newline in C as [-> _]. rewrite app_length. cbn. lia. Qed.
Lemma step_less x y : step (Live x) (Live y) -> work y < work x \/ (work y = work x /\ load_ y < load_ x).
Proof.
  intros St. inversion St; subst; unfold work, load_, with_c, with_d; cbn [x_out x_err x_run c_phase c_buf c_state c_queue d_phase d_buf d_queue x_chan x_got].
  all: repeat match goal with
       | H : reading _ _ _ |- _ => destruct H as (? & ? & ?)
       | H : cut_first _ _ = Some _ |- _ => apply cut_shorter in H
       | H : c_buf ?z <> [] |- _ => assert (0 < length (c_buf z)) by (destruct (c_buf z); [congruence|cbn; lia]); clear H
       | H : took _ _ _ _ _ _ = Live _ |- _ => unfold took in H; destruct (build _ _) as [s es|e|]; try discriminate; injection H as <-
       end;
       repeat match goal with
       | H : ?f ?z = _ |- _ => is_var z; rewrite H in *; clear H
       end;
       cbn [x_out x_err x_run c_phase c_buf c_state c_queue d_phase d_buf d_queue x_chan x_got cw rw dw length]; rewrite ?app_length, ?firstn_length, ?skipn_length in *; cbn [length];
       lia.
Qed.
Lemma settles : forall w n x, work x <= w -> load_ x <= n -> Acc (fun b a => step a b) (Live x).
Proof.
  assert (D : Acc (fun b a => step a b) Dead) by (constructor; intros y St; inversion St).
  induction w as [w IHw] using (well_founded_induction Wf_nat.lt_wf).
  induction n as [n IHn] using (well_founded_induction Wf_nat.lt_wf). intros x W L. constructor. intros [y|] St; [|exact D].
  destruct (step_less _ _ St) as [Q|[Q1 Q2]]; [eapply (IHw (work y)); [lia|lia|reflexivity]|eapply (IHn (load_ y)); lia].
Qed.
End Ends.

Ltac fields := unfold with_c, with_d; cbn [x_out x_err x_run c_phase c_buf c_state c_queue d_phase d_buf d_queue x_chan x_got].
(** *** What arrives *)
Section Arrives.
Variables S E : Type.
Variable build : S -> bytes -> outcome S E.
Variable final : S -> list E -> Prop.
Notation live := (live S E).
Notation sys := (sys S E).
Notation step := (step S E build final).
Notation steps := (steps S E build final).
Notation runs := (runs build).

Lemma mains_app (a b : list (message E)) : mains (a ++ b) = mains a ++ mains b.
Proof. unfold mains. apply flat_map_app. Qed.
Lemma plains_app (a b : list (message E)) : plains (a ++ b) = plains a ++ plains b.
Proof. unfold plains. apply flat_map_app. Qed.
Lemma mains_main (es : list E) : mains (map Main es) = es.
Proof. induction es as [|e es IH]; cbn; [reflexivity|now f_equal]. Qed.
Lemma plains_main (es : list E) : plains (map Main es) = [].
Proof. now induction es. Qed.
Lemma runs_inv s L s2 es : runs s L s2 es -> (L = [] /\ s2 = s /\ es = []) \/ exists ls l s1 es1 es2, L = ls ++ [l] /\ runs s ls s1 es1 /\ build s1 l = Built s2 es2 /\ es = es1 ++ es2.
Proof. destruct 1; [auto|]. right. do 5 eexists. eauto. Qed.
Lemma runs_det s ls s1 es : runs s ls s1 es -> forall s2 es2, runs s ls s2 es2 -> s1 = s2 /\ es = es2.
Proof.
  induction 1 as [s|s ls s1 es l s2 es2 R IH B]; intros s3 es3 R3; apply runs_inv in R3 as [(Q & -> & ->)|(ls' & l' & s1' & e1 & e2 & Q & R' & B' & ->)]; auto.
  - now destruct ls'.
  - now destruct ls.
  - apply app_inj_tail in Q as [-> ->]. destruct (IH _ _ R') as [-> ->]. rewrite B in B'. injection B' as -> ->. auto.
Qed.
Lemma runs_prefix s ls s2 es2 : runs s ls s2 es2 -> forall a l b, ls = a ++ l :: b -> forall s1 es1, runs s a s1 es1 -> exists s1' es', build s1 l = Built s1' es'.
Proof.
  induction 1 as [s|s ls s1 es l s2 es2 R IH B]; intros a l' b Q s3 es3 R3; [now destruct a|]. destruct b as [|x b] using rev_ind.
  - apply app_inj_tail in Q as [-> ->]. destruct (runs_det _ _ _ _ R _ _ R3) as [-> ->]. eauto.
  - rewrite app_comm_cons, app_assoc in Q. apply app_inj_tail in Q as [-> ->]. eapply IH; eauto.
Qed.
(** The next line of a text. *)
Lemma written_cons l ls last : written (l :: ls) last = l ++ newline :: written ls last.
Proof. unfold written. cbn. now rewrite <- !app_assoc. Qed.
Lemma buffer_line buf out ls last line rest : text ls last -> buf ++ out = written ls last -> cut_first newline buf = Some (line, rest) ->
  exists ls', ls = line :: ls' /\ rest ++ out = written ls' last.
Proof.
  intros [T1 T2] Q C. apply cut_newline in C as [-> N]. destruct ls as [|l ls].
  - exfalso. apply T2. unfold written in Q. cbn in Q. rewrite <- Q. apply in_or_app. left. apply in_or_app. right. now left.
  - rewrite written_cons, <- app_assoc in Q. cbn in Q. inversion T1; subst. destruct (newline_unique _ _ _ _ N H1 Q) as [-> X]. eauto.
Qed.
Lemma prefix_no_newline buf out l w : buf ++ out = l ++ newline :: w -> ~ In newline buf -> ~ In newline l -> length buf <= length l.
Proof.
  revert l. induction buf as [|c buf IH]; intros l Q N1 N2; cbn; [lia|]. destruct l as [|d l]; cbn in Q; injection Q as -> Q; [destruct N1; now left|]. cbn.
  assert (length buf <= length l); [|lia]. apply IH; auto. intros J; apply N1; now right. intros J; apply N2; now right.
Qed.
Lemma buffer_room buf out ls last : text ls last -> Forall short ls -> short last -> buf ++ out = written ls last -> ~ In newline buf -> length buf < max_token.
Proof.
  intros [T1 T2] S1 S2 Q N. destruct ls as [|l ls].
  - unfold written in Q. cbn in Q. unfold short in S2. rewrite <- Q, app_length in S2. lia.
  - rewrite written_cons in Q. inversion T1; subst. inversion S1; subst. pose proof (prefix_no_newline _ _ _ _ Q N H1). unfold short in *. lia.
Qed.
Lemma lines_cons l ls last : lines_of (l :: ls) last = drop_cr l :: lines_of ls last.
Proof. reflexivity. Qed.
Lemma nil_written buf ls last : text ls last -> buf = written ls last -> ~ In newline buf -> ls = [] /\ last = buf.
Proof. intros T -> N. destruct ls; [auto|]. exfalso. apply N. rewrite written_cons. apply in_or_app. right. now left. Qed.

Variables (ls : list bytes) (last : bytes) (els : list bytes) (elast : bytes) (s0 s1 : S) (first es : list E).
Hypothesis T : text ls last.
Hypothesis Sh : Forall short ls.
Hypothesis Shl : short last.
Hypothesis Te : text els elast.
Hypothesis She : Forall short els.
Hypothesis Shel : short elast.
Hypothesis R : runs s0 (lines_of ls last) s1 es.
Definition inv_c (x : live) : Prop :=
  match c_phase x with
  | Scanning => x_run x <> Reported /\ exists ls' last' dl es', c_buf x ++ x_out x = written ls' last' /\ text ls' last' /\ Forall short ls' /\ short last' /\
      lines_of ls last = dl ++ lines_of ls' last' /\ runs s0 dl (c_state x) es' /\ mains (x_got x ++ x_chan x ++ c_queue x) = first ++ es'
  | Waiting => x_run x = Closed /\ x_out x = [] /\ c_state x = s1 /\ mains (x_got x ++ x_chan x ++ c_queue x) = first ++ es
  | Ending => x_run x = Reported /\ x_out x = [] /\ exists fin, final s1 fin /\ mains (x_got x ++ x_chan x ++ c_queue x) = first ++ es ++ fin
  end /\ plains (c_queue x) = [].
Definition inv_d (x : live) : Prop :=
  match d_phase x with
  | NoStderr => x_err x = [] /\ els = [] /\ d_buf x = elast /\ d_queue x = [] /\ plains (x_got x ++ x_chan x) = []
  | Reading => exists done todo, els = done ++ todo /\ d_buf x ++ x_err x = written todo elast /\ plains (x_got x ++ x_chan x ++ d_queue x) = map drop_cr done
  | Stopped => False
  end /\ mains (d_queue x) = [].
Lemma inv_c_same x y : c_phase y = c_phase x -> x_run y = x_run x -> x_out y = x_out x -> c_buf y = c_buf x -> c_state y = c_state x -> c_queue y = c_queue x ->
  mains (x_got y ++ x_chan y) = mains (x_got x ++ x_chan x) -> inv_c x -> inv_c y.
Proof. unfold inv_c. intros -> -> -> -> -> -> M. rewrite !app_assoc, (mains_app (x_got y ++ x_chan y)), M, <- mains_app. auto. Qed.
Lemma inv_d_same x y : d_phase y = d_phase x -> x_err y = x_err x -> d_buf y = d_buf x -> d_queue y = d_queue x -> plains (x_got y ++ x_chan y) = plains (x_got x ++ x_chan x) -> inv_d x -> inv_d y.
Proof. unfold inv_d. intros -> -> -> -> M. rewrite !app_assoc, (plains_app (x_got y ++ x_chan y)), M, <- plains_app. auto. Qed.
Definition inv (s : sys) : Prop := match s with Live x => inv_c x /\ inv_d x | Dead => False end.
(** The reader of stdout takes a line. *)
Lemma took_ok x rest line ls' last' dl es' : lines_of ls last = dl ++ drop_cr line :: lines_of ls' last' -> runs s0 dl (c_state x) es' -> text ls' last' -> Forall short ls' -> short last' ->
  rest ++ x_out x = written ls' last' -> x_run x <> Reported -> c_queue x = [] -> mains (x_got x ++ x_chan x ++ c_queue x) = first ++ es' -> inv_d x -> inv (took S E build x rest line).
Proof.
  intros L Rx T' S1 S2 W Rn Q M D. destruct (runs_prefix _ _ _ _ R _ _ _ L _ _ Rx) as (s' & e' & B). unfold took. rewrite B. split.
  - unfold inv_c. fields. split; [|apply plains_main]. split; auto. exists ls', last', (dl ++ [drop_cr line]), (es' ++ e'). repeat (split; auto); [now rewrite <- app_assoc|econstructor; eauto|].
    rewrite Q, app_nil_r in M. rewrite app_assoc, mains_app, M, mains_main. now rewrite <- app_assoc.
  - revert D. apply inv_d_same; reflexivity.
Qed.
Lemma inv_step a b : step a b -> inv a -> inv b.
Proof.
  intros St I. destruct St; cbn in I; destruct I as [[C Cq] [D Dq]].
  - (* read *) destruct H as (P & Q & N). rewrite P in C. destruct C as (Rn & ls' & last' & dl & es' & W & T' & S1 & S2 & L & Rx & M). split.
    + unfold inv_c, with_c. fields. split; auto. split; auto. exists ls', last', dl, es'. repeat (split; auto). rewrite <- app_assoc, firstn_skipn. exact W. now rewrite Q in M.
    + apply (inv_d_same x); try reflexivity. split; auto.
  - (* line *) rewrite H in C. destruct C as (Rn & ls' & last' & dl & es' & W & T' & S1 & S2 & L & Rx & M). destruct (buffer_line _ _ _ _ _ _ T' W H1) as (ls2 & -> & W2).
    rewrite lines_cons in L. destruct T' as [T1 T2]. inversion T1; subst. inversion S1; subst. eapply took_ok; eauto. split; auto. split; auto.
  - (* last *) destruct H as (P & Q & N). rewrite P in C. destruct C as (Rn & ls' & last' & dl & es' & W & T' & S1 & S2 & L & Rx & M). rewrite H0, app_nil_r in W.
    destruct (nil_written _ _ _ T' W N) as [-> ->]. apply took_ok with (ls' := []) (last' := []) (dl := dl) (es' := es'); auto.
    + rewrite L. unfold lines_of. cbn. destruct (c_buf x); [congruence|reflexivity].
    + split; [constructor|intros []].
    + unfold short in *. cbn. lia.
    (* *)
    + split; auto.
  - (* eof *) destruct H as (P & Q & N). rewrite P in C. destruct C as (Rn & ls' & last' & dl & es' & W & T' & S1 & S2 & L & Rx & M). rewrite H0, H2 in W. cbn in W.
    destruct (nil_written _ _ _ T' W (fun J => match J with end)) as [-> ->]. unfold lines_of in L at 2. cbn in L. rewrite app_nil_r in L. subst dl. destruct (runs_det _ _ _ _ R _ _ Rx) as [X1 X2]. split.
    + unfold inv_c, with_c. fields. split; auto. repeat split; auto; [destruct (x_run x); congruence|]. rewrite X2. now rewrite Q in M.
    + apply (inv_d_same x); try reflexivity. split; auto.
  - (* too long *) exfalso. destruct H as (P & Q & N). rewrite P in C. destruct C as (Rn & ls' & last' & dl & es' & W & T' & S1 & S2 & L & Rx & M).
    pose proof (buffer_room _ _ _ _ T' S1 S2 W N). lia.
  - (* send *) assert (X : mains (x_got x ++ (x_chan x ++ [m]) ++ q) = mains (x_got x ++ x_chan x ++ c_queue x)) by (rewrite H, <- (app_assoc (x_chan x)); reflexivity).
    assert (Y : plains q = []). { rewrite H in Cq. cbn in Cq. now apply app_eq_nil in Cq. }
    split.
    + unfold inv_c, with_c. fields. split; auto. rewrite X. auto.
    + apply (inv_d_same x); try reflexivity; [|split; auto]. fields. rewrite !app_assoc, (plains_app _ [m]). rewrite H in Cq. cbn in Cq. apply app_eq_nil in Cq as [Cq _]. cbn. rewrite Cq. now rewrite !app_nil_r.
  - (* ended *) split; [|apply (inv_d_same x); try reflexivity; split; auto]. unfold inv_c, with_c. fields. split; auto. rewrite H, ?H0 in C. destruct (c_phase x).
    + destruct C as (Rn & C). split; [discriminate|]. exact C.
    + destruct C as (Rn & _). discriminate.
    + destruct C as (Rn & _). discriminate.
  - (* reported *) rewrite H0 in C. destruct C as (Rn & O & Ss & M). split; [|apply (inv_d_same x); try reflexivity; split; auto]. unfold inv_c, with_c. fields. split; [|apply plains_main]. repeat split; auto.
    exists es0. split; [now rewrite <- Ss|]. rewrite H1, app_nil_r in M. rewrite app_assoc, mains_app, M, mains_main. now rewrite <- app_assoc.
  - (* stderr: read *) split; [apply (inv_c_same x); try reflexivity; split; auto|]. unfold inv_d, with_d. fields. rewrite H in D. destruct D as (dn & td & L & W & M). split; auto. exists dn, td. rewrite H0 in M.
    split; auto. split; auto. rewrite <- app_assoc, firstn_skipn. exact W.
  - split; [apply (inv_c_same x); try reflexivity; split; auto|]. unfold inv_d, with_d. fields. rewrite H in D. destruct D as (dn & td & L & W & M). split; auto.
    assert (T2 : text td elast). { destruct Te as [Ta Tb]. rewrite L in Ta. apply Forall_app in Ta as [_ Ta]. split; auto. }
    destruct (buffer_line _ _ _ _ _ _ T2 W H1) as (td' & -> & W2). exists (dn ++ [line]), td'. rewrite <- app_assoc. split; [exact L|]. split; [exact W2|]. rewrite H0, app_nil_r in M. rewrite app_assoc, plains_app, M, map_app. reflexivity.
  - exfalso. rewrite H in D. destruct D as (dn & td & L & W & M).
    assert (T2 : text td elast). { destruct Te as [Ta Tb]. rewrite L in Ta. apply Forall_app in Ta as [_ Ta]. split; auto. }
    assert (S2 : Forall short td). { pose proof She as Sx. rewrite L in Sx. apply Forall_app in Sx. tauto. }
    pose proof (buffer_room _ _ _ _ T2 S2 Shel W H1). lia.
  - (* stderr: send *) assert (X : plains (x_got x ++ (x_chan x ++ [m]) ++ q) = plains (x_got x ++ x_chan x ++ d_queue x)) by (rewrite H, <- (app_assoc (x_chan x)); reflexivity).
    rewrite H in Dq. cbn in Dq. apply app_eq_nil in Dq as [Dm Dq]. split.
    + apply (inv_c_same x); try reflexivity; [|split; auto]. fields. rewrite !app_assoc, (mains_app _ [m]). cbn. rewrite Dm. now rewrite !app_nil_r.
    + unfold inv_d, with_d. fields. split; auto. rewrite X. destruct (d_phase x); auto. destruct D as (_ & _ & _ & D & _). rewrite D in H. discriminate.
  - (* recv *) assert (X : (x_got x ++ [m]) ++ r = x_got x ++ x_chan x) by (rewrite H, <- app_assoc; reflexivity). split.
    + apply (inv_c_same x); try reflexivity; [|split; auto]. cbn [x_got x_chan]. now rewrite X.
    + apply (inv_d_same x); try reflexivity; [|split; auto]. cbn [x_got x_chan]. now rewrite X.
Qed.
Lemma inv_steps a b : steps a b -> inv a -> inv b.
Proof. induction 1 as [s|a b c St IH N]; intros I; [exact I|]. eapply inv_step; eauto. Qed.
Lemma inv_start single : (single = true -> els = [] /\ elast = []) -> inv (Live (started S E single s0 first (written ls last) (written els elast))).
Proof.
  intros Hs. split.
  - unfold inv_c, started. fields. split; auto. split; [discriminate|]. exists ls, last, [], []. repeat (split; auto); [constructor|]. change (mains (map Main first ++ []) = first ++ []). now rewrite !app_nil_r, mains_main.
  - unfold inv_d, started. fields. split; auto. destruct single.
    + destruct Hs as [-> ->]; auto. repeat split; auto. apply plains_main.
    + exists [], els. repeat split; auto. change (plains (map (@Main E) first ++ []) = []). rewrite app_nil_r. apply plains_main.
Qed.
(** A state that can go no further. *)
Lemma at_rest x : (exists fin, final s1 fin) -> inv (Live x) -> (forall y, ~ step (Live x) y) ->
  x_run x = Reported /\ c_queue x = [] /\ x_chan x = [] /\ (exists fin, final s1 fin /\ mains (x_got x) = first ++ es ++ fin) /\ plains (x_got x) = map drop_cr els /\ d_buf x = elast.
Proof.
  intros (fin0 & F0) [[C Cq] [D Dq]] St.
  assert (Ch : x_chan x = []). { destruct (x_chan x) as [|m r] eqn:Q; [reflexivity|]. exfalso. eapply St. eapply s_recv; eauto. }
  assert (Cap : length (x_chan x) < capacity). { rewrite Ch. exact capacity_pos. }
  assert (Qc : c_queue x = []). { destruct (c_queue x) as [|m q] eqn:Q; [reflexivity|]. exfalso. eapply St. eapply s_send; eauto. }
  assert (Qd : d_queue x = []). { destruct (d_queue x) as [|m q] eqn:Q; [reflexivity|]. exfalso. eapply St. eapply s_dsend; eauto. }
  assert (Dx : x_err x = [] /\ plains (x_got x) = map drop_cr els /\ d_buf x = elast).
  { destruct (d_phase x) eqn:P; [| |tauto].
    - destruct D as (D1 & D2 & D3 & D4 & D5). rewrite Ch, app_nil_r in D5. rewrite D2, D5. auto.
    - destruct D as (dn & td & L & W & M). rewrite Ch, Qd, app_nil_r in M.
      assert (T2 : text td elast). { destruct Te as [Ta Tb]. rewrite L in Ta. apply Forall_app in Ta as [_ Ta]. split; auto. }
      assert (S2 : Forall short td). { pose proof She as Sx. rewrite L in Sx. apply Forall_app in Sx. tauto. }
      destruct (in_newline_dec (d_buf x)) as [J|J].
      + destruct (cut_newline_some _ J) as (l & r & Cl). exfalso. eapply St. eapply s_dline; eauto.
      + pose proof (buffer_room _ _ _ _ T2 S2 Shel W J) as Rm. destruct (x_err x) as [|c er] eqn:Qe.
        * rewrite app_nil_r in W. destruct (nil_written _ _ _ T2 W J) as [-> <-]. rewrite app_nil_r in L. subst dn. auto.
        * exfalso. eapply St. eapply (s_dread _ _ _ _ _ 1); eauto; rewrite ?Qe; cbn; lia. }
  destruct Dx as (Xe & Xp & Xb). destruct (c_phase x) eqn:P.
  - exfalso. destruct C as (Rn & ls' & last' & dl & es' & W & T' & S1 & S2 & L & Rx & M). destruct (in_newline_dec (c_buf x)) as [J|J].
    + destruct (cut_newline_some _ J) as (l & r & Cl). eapply St. eapply s_line; eauto.
    + pose proof (buffer_room _ _ _ _ T' S1 S2 W J) as Rm. assert (Rd : reading S E x) by (split; auto).
      destruct (x_out x) as [|c o] eqn:Qo.
      * destruct (x_run x) eqn:Qr.
        -- eapply St. eapply s_ended; eauto.
        -- destruct (c_buf x) eqn:Qb; [eapply St; eapply s_eof; eauto; rewrite Qr; discriminate|]. eapply St. eapply s_last; eauto; rewrite ?Qr, ?Qb; try discriminate; auto.
        -- congruence.
      * eapply St. eapply (s_read _ _ _ _ _ 1); eauto; rewrite ?Qo; cbn; lia.
  - exfalso. destruct C as (Rn & O & Ss & M). eapply St. eapply s_reported; eauto. rewrite Ss. exact F0.
  - destruct C as (Rn & O & fin & F & M). rewrite Ch, Qc, app_nil_r in M. repeat split; eauto.
Qed.
End Arrives.
