(** * C75: the command line shown can be pasted into a shell *)
From Coq Require Import Ascii String List Arith Bool Lia.
From Verif Require Import M_Str P_Str M_Text.
Import ListNotations.
Open Scope nat_scope.
Open Scope list_scope.
Local Notation newline := "010"%char.

(** ** Specification: how a shell reads a simple command (POSIX shell, 2.2 and 2.3; bash for braces and !) *)
Inductive mode := Plain | Single | Double | Escape.
(** Characters that do not stand for themselves unless quoted. *)
Definition special : bytes := [newline] ++ #"|&;<>()$`*?[!{}".
(** Characters that do not stand for themselves at the start of a word. *)
Definition special_start : bytes := #"#~".
(** [cur] is the word read so far, if one has begun. None: not a simple command of plain words. *)
Fixpoint sh (m : mode) (cur : option bytes) (s : bytes) : option (list bytes) :=
  let word := match cur with Some w => w | None => [] end in
  match s with
  | [] => match m with Plain => Some (match cur with Some w => [w] | None => [] end) | _ => None end
  | c :: r =>
      match m with
      | Plain =>
          if eqc c " "%char || eqc c "009"%char then
            match sh Plain None r with Some ws => Some (match cur with Some w => w :: ws | None => ws end) | None => None end
          else if eqc c "'"%char then sh Single (Some word) r
          else if eqc c """"%char then sh Double (Some word) r
          else if eqc c "\"%char then sh Escape (Some word) r
          else if containsc c special then None
          else if match cur with None => containsc c special_start | Some _ => false end then None
          else sh Plain (Some (word ++ [c])) r
      | Single => if eqc c "'"%char then sh Plain cur r else sh Single (Some (word ++ [c])) r
      | Double =>
          if eqc c """"%char then sh Plain cur r
          else if containsc c #"$`\!" then None
          else sh Double (Some (word ++ [c])) r
      | Escape => if eqc c newline then None else sh Plain (Some (word ++ [c])) r
      end
  end.
Definition shell_words (s : bytes) : option (list bytes) := sh Plain None s.
(** The characters that make xgo quote a word. *)
Definition triggers : bytes := ["009"%char; " "%char; newline] ++ #";<>\${}()&!*".
(** A word as it is stands for itself. *)
Definition stands_for_itself (s : bytes) : Prop :=
  (forall c, In c s -> ~ In c special /\ ~ In c (#"'""\ " ++ ["009"%char])) /\ (forall c r, s = c :: r -> ~ In c special_start).
(** The words that survive being shown. *)
Definition shows_well (s : bytes) : Prop := (exists c, In c s /\ In c triggers) \/ stands_for_itself s.

(** ** Proofs *)
Ltac l_lia := unfold bytes in *; lia.
Lemma contains_any_spec s chars : contains_any s chars = true <-> exists c, In c s /\ In c chars.
Proof. unfold contains_any. rewrite existsb_exists. split; intros (c & I & J); exists c; split; auto; now apply containsc_in. Qed.
Lemma containsc_not c s : ~ In c s -> containsc c s = false.
Proof. intros N. destruct (containsc c s) eqn:E; auto. now apply containsc_in in E. Qed.
Lemma sh_single body rest : forall w,
  sh Single (Some w) (flat_map (fun c => if eqc c "'"%char then #"'\''" else [c]) body ++ #"'" ++ rest) = sh Plain (Some (w ++ body)) rest.
Proof.
  induction body as [|c body IH]; intros w.
  - cbn [flat_map app]. rewrite app_nil_r. reflexivity.
  - cbn [flat_map]. destruct (eqc c "'"%char) eqn:E.
    + apply eqc_eq in E. subst c. rewrite <- app_assoc. change (#"'\''" ++ ?x) with ("'"%char :: "\"%char :: "'"%char :: "'"%char :: x).
      assert (S : forall x, sh Single (Some w) ("'"%char :: "\"%char :: "'"%char :: "'"%char :: x) = sh Single (Some (w ++ #"'")) x) by reflexivity.
      rewrite S, IH, <- app_assoc. reflexivity.
    + rewrite <- app_assoc. cbn [app]. cbn [sh]. rewrite E, IH, <- app_assoc. reflexivity.
Qed.
Definition ordinary (c : ascii) : Prop := ~ In c special /\ ~ In c (#"'""\ " ++ ["009"%char]).
Lemma sh_ordinary c cur r : ordinary c -> (cur = None -> ~ In c special_start) -> sh Plain cur (c :: r) = sh Plain (Some (match cur with Some w => w | None => [] end ++ [c])) r.
Proof.
  intros [A B] H. cbn [sh].
  assert (E : forall d, In d (#"'""\ " ++ ["009"%char]) -> eqc c d = false) by (intros d I; apply eqc_neq; intros ->; contradiction).
  rewrite !E by (vm_compute; tauto). cbn [orb]. rewrite (containsc_not c special) by auto. destruct cur; [reflexivity|]. rewrite containsc_not by auto. reflexivity.
Qed.
Lemma sh_plain s : forall w rest, Forall ordinary s -> sh Plain (Some w) (s ++ rest) = sh Plain (Some (w ++ s)) rest.
Proof.
  induction s as [|c s IH]; intros w rest F; [now rewrite app_nil_r|]. inversion F; subst. cbn [app]. rewrite sh_ordinary by (auto; discriminate). rewrite IH, <- app_assoc by auto. reflexivity.
Qed.
Lemma quote_word s rest : shows_well s -> sh Plain None (quote s ++ rest) = sh Plain (Some s) rest.
Proof.
  intros H. destruct s as [|c s]; [reflexivity|]. unfold quote. destruct (contains_any (c :: s) shell_special) eqn:Q.
  - rewrite <- !app_assoc. change (#"'" ++ ?x) with ("'"%char :: x) at 1. cbn [sh]. apply (sh_single (c :: s) rest []).
  - destruct H as [H|[H1 H2]]; [apply contains_any_spec in H; change triggers with shell_special in H; congruence|].
    assert (O : Forall ordinary (c :: s)) by (apply Forall_forall; intros d I; exact (H1 d I)). inversion O; subst. cbn [app]. rewrite sh_ordinary; [|auto|intros _; now apply (H2 c s)]. cbn [app]. now rewrite sh_plain.
Qed.
(** A shell reads the shown command line as the arguments it shows. *)
Theorem C75_command_partial :
  forall cmd args, stands_for_itself cmd -> cmd <> [] -> Forall shows_well args -> shell_words (shown_command cmd args) = Some (cmd :: args).
Proof.
  intros cmd args [C1 C2] N F. unfold shown_command, shell_words.
  assert (G : forall args, Forall shows_well args -> args <> [] -> sh Plain None (join #" " (map quote args)) = Some args).
  { clear. induction args as [|a args IH]; intros F N; [congruence|]. inversion F; subst. destruct args as [|b args].
    - cbn [map join]. rewrite <- (app_nil_r (quote a)), quote_word by auto. reflexivity.
    - change (join #" " (map quote (a :: b :: args))) with (quote a ++ " "%char :: join #" " (map quote (b :: args))). rewrite quote_word by auto. cbn [sh eqc]. change (eqc " "%char " "%char) with true. cbn [orb].
      rewrite IH by (auto; discriminate). reflexivity. }
  assert (P : forall rest, sh Plain None (cmd ++ rest) = sh Plain (Some cmd) rest).
  { intros rest. destruct cmd as [|c s]; [congruence|]. assert (O : Forall ordinary (c :: s)) by (apply Forall_forall; intros d I; exact (C1 d I)). inversion O; subst. cbn [app].
    rewrite sh_ordinary; [|auto|intros _; now apply (C2 c s)]. cbn [app]. now rewrite sh_plain. }
  destruct args as [|a args].
  - cbn [map join]. rewrite <- (app_nil_r cmd), P. rewrite app_nil_r. reflexivity.
  - change (join #" " (cmd :: map quote (a :: args))) with (cmd ++ " "%char :: join #" " (map quote (a :: args))). rewrite P. cbn [sh]. change (eqc " "%char " "%char) with true. cbn [orb].
    rewrite G by (auto; discriminate). reflexivity.
Qed.
Print Assumptions C75_command_partial.
(** One word is read back exactly if it has a character that makes xgo quote it, or needs no quotes. *)
Lemma sh_length s : forall m cur ws, sh m cur s = Some ws -> length (concat ws) <= length (match cur with Some w => w | None => [] end) + length s.
Proof.
  induction s as [|c s IH]; intros m cur ws E.
  - cbn in E. destruct m; try discriminate. injection E as <-. destruct cur; cbn; rewrite ?app_length; cbn; l_lia.
  - cbn [sh] in E. cbn [length]. destruct m.
    + destruct (eqc c " "%char || eqc c "009"%char).
      { destruct (sh Plain None s) as [l|] eqn:S; [|discriminate]. apply IH in S. cbn [length] in S. injection E as <-. destruct cur; cbn [concat]; rewrite ?app_length; l_lia. }
      destruct (eqc c "'"%char); [apply IH in E; cbn iota in E; l_lia|]. destruct (eqc c """"%char); [apply IH in E; cbn iota in E; l_lia|]. destruct (eqc c "\"%char); [apply IH in E; cbn iota in E; l_lia|].
      destruct (containsc c special); [discriminate|]. destruct (match cur with None => _ | Some _ => _ end); [discriminate|]. apply IH in E. rewrite app_length in E. cbn [length] in E. l_lia.
    + destruct (eqc c "'"%char); apply IH in E; cbn iota in E; rewrite ?app_length in E; cbn [length] in E; l_lia.
    + destruct (eqc c """"%char); [apply IH in E; cbn iota in E; l_lia|]. destruct (containsc c #"$`\!"); [discriminate|]. apply IH in E; cbn iota in E; rewrite ?app_length in E; cbn [length] in E; l_lia.
    + destruct (eqc c newline); [discriminate|]. apply IH in E; cbn iota in E; rewrite ?app_length in E; cbn [length] in E; l_lia.
Qed.
Lemma ordinary_dec c : {ordinary c} + {~ ordinary c}.
Proof.
  unfold ordinary. destruct (in_dec ascii_dec c special) as [I|I]; [right; tauto|]. destruct (in_dec ascii_dec c (#"'""\ " ++ ["009"%char])) as [J|J]; [right; tauto|left; tauto].
Qed.
Lemma sh_bad c r cur ws : ~ ordinary c -> ~ In c triggers -> sh Plain cur (c :: r) = Some ws -> length (concat ws) <= length (match cur with Some w => w | None => [] end) + length r.
Proof.
  intros O T E. assert (N1 : eqc c " "%char || eqc c "009"%char = false).
  { apply orb_false_iff. split; apply eqc_neq; intros ->; apply T; vm_compute; tauto. }
  assert (N2 : eqc c "\"%char = false) by (apply eqc_neq; intros ->; apply T; vm_compute; tauto).
  cbn [sh] in E. rewrite N1, N2 in E. destruct (eqc c "'"%char) eqn:N3; [now apply sh_length in E|]. destruct (eqc c """"%char) eqn:N4; [now apply sh_length in E|].
  destruct (containsc c special) eqn:S; [discriminate|]. exfalso. apply O. split; [intros I; apply containsc_in in I; congruence|]. apply orb_false_iff in N1 as [N5 N6].
  intros I. cbn [app lit list_ascii_of_string In] in I. repeat (destruct I as [<-|I]; [rewrite eqc_refl in *; discriminate|]). destruct I.
Qed.
Lemma sh_bad_in s : forall w ws, ~ Forall ordinary s -> Forall (fun c => ~ In c triggers) s -> sh Plain (Some w) s = Some ws -> length (concat ws) < length w + length s.
Proof.
  induction s as [|c s IH]; intros w ws B T E; [exfalso; apply B; constructor|]. inversion T; subst. destruct (ordinary_dec c) as [O|O].
  - rewrite sh_ordinary in E by (auto; discriminate). apply IH in E; auto. rewrite app_length in E; cbn [length] in *; l_lia.
  - apply sh_bad in E; auto. cbn [length] in *. l_lia.
Qed.
Theorem C75_word_exact :
  forall s, shell_words (quote s) = Some [s] <-> shows_well s.
Proof.
  intros s. split.
  - intros E. destruct (contains_any s triggers) eqn:Q; [left; now apply contains_any_spec|]. right.
    assert (T : Forall (fun c => ~ In c triggers) s). { apply Forall_forall. intros c I J. assert (contains_any s triggers = true) by (apply contains_any_spec; eauto). congruence. }
    destruct s as [|c s]; [split; [intros ? []|discriminate]|]. unfold quote in E. change shell_special with triggers in E. rewrite Q in E. unfold shell_words in E. inversion T as [|? ? T1 T2]; subst.
    assert (O : ordinary c). { destruct (ordinary_dec c) as [O|O]; auto. exfalso. apply sh_bad in E; auto. cbn in E. rewrite app_nil_r in E. cbn in E. l_lia. }
    assert (St : ~ In c special_start). { intros I. assert (X := E). cbn [sh] in X. destruct I as [<-|[<-|[]]]; vm_compute in X; discriminate X. }
    rewrite sh_ordinary in E by auto. cbn [app] in E. split.
    + intros d I. destruct (Forall_dec ordinary ordinary_dec s) as [F|F]; [destruct I as [<-|I]; [exact O|rewrite Forall_forall in F; exact (F d I)]|].
      exfalso. apply sh_bad_in in E; auto. cbn in E. rewrite app_nil_r in E. l_lia.
    + intros d r [= <- <-]. exact St.
  - intros H. unfold shell_words. rewrite <- (app_nil_r (quote s)), quote_word by auto. reflexivity.
Qed.
Print Assumptions C75_word_exact.
Example C75_example :
  Forall shows_well [#"-run=TestA"; #"it's a b"; []; #"a""b c"] /\ stands_for_itself #"/usr/bin/go" /\
  shown_command #"go" [#"it's a b"; []] = #"go 'it'\''s a b' """"".
Proof.
  assert (S : forall s, forallb (fun c => negb (containsc c (special ++ #"'""\ " ++ ["009"%char]))) s = true -> match s with c :: _ => containsc c special_start | [] => false end = false -> stands_for_itself s).
  { intros s H K. rewrite forallb_forall in H. split.
    - intros c I. specialize (H c I). apply negb_true_iff in H. rewrite containsc_app in H. apply orb_false_iff in H as [H1 H2]. split; intros J; apply containsc_in in J; congruence.
    - intros c r -> J. apply containsc_in in J. congruence. }
  split; [|split; [now apply S|reflexivity]].
  constructor; [right; now apply S|]. constructor; [left; exists " "%char; vm_compute; tauto|]. constructor; [right; split; [intros ? []|discriminate]|]. constructor; [left; exists " "%char; vm_compute; tauto|constructor].
Qed.
(** Not so for quotes and some other characters without blanks. *)
Theorem C75_word_refuted :
  ~ (forall s, shell_words (quote s) = Some [s]) /\
  Forall (fun s => ~ shows_well s) [#"it's"; #"-run=A|B"; #"a?"; #"[a]"; #"-ldflags=""-s"""; #"#a"; #"~a"; #"`a`"].
Proof.
  assert (A : Forall (fun s => ~ shows_well s) [#"it's"; #"-run=A|B"; #"a?"; #"[a]"; #"-ldflags=""-s"""; #"#a"; #"~a"; #"`a`"]).
  { repeat constructor; intros H; apply C75_word_exact in H; vm_compute in H; discriminate H. }
  split; [|exact A]. intros H. inversion A as [|? ? B _]; subst. apply B. apply C75_word_exact. apply H.
Qed.
Print Assumptions C75_word_refuted.
