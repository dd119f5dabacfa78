(** * C30, C44: reading of coverage profiles, specified without the parser.  Model: M_Coverage. *)
From Coq Require Import Ascii String List Arith ZArith Bool Lia.
From Verif Require Import M_Str M_Version M_Coverage T_Coverage.
Import ListNotations.
Open Scope nat_scope.

(** ** Specification *)
Definition digit (c : ascii) : Prop := 48 <= nat_of_ascii c <= 57.
(** The value of a digit string, given with the last digit first. *)
Fixpoint value_rev (d : bytes) : Z :=
  match d with [] => 0%Z | c :: r => (Z.of_nat (nat_of_ascii c - 48) + 10 * value_rev r)%Z end.
Definition value (d : bytes) : Z := value_rev (rev d).
(** A decimal number, maybe signed, that fits in 64 bits. *)
Definition number (s : bytes) (z : Z) : Prop :=
  exists d, d <> [] /\ Forall digit d /\
    (((s = d \/ s = "+"%char :: d) /\ z = value d /\ (z < 2 ^ 63)%Z) \/ (s = "-"%char :: d /\ z = (- value d)%Z /\ (- 2 ^ 63 <= z)%Z)).
(** The blocks that lines of a profile denote: position text, then the count after the last
    space; a count that is no number is 0; lines without space denote nothing. *)
Inductive reads : list bytes -> list line -> Prop :=
| RNil : reads [] []
| RNumber p c z ls bs : ~ In " "%char c -> number c z -> reads ls bs -> reads ((p ++ " "%char :: c) :: ls) ((p, z) :: bs)
| RBad p c ls bs : ~ In " "%char c -> (forall z, ~ number c z) -> reads ls bs -> reads ((p ++ " "%char :: c) :: ls) ((p, 0%Z) :: bs)
| RSkip l ls bs : ~ In " "%char l -> reads ls bs -> reads (l :: ls) bs.
(** The blocks of a file: of all its lines but a first one that starts with "mode:". *)
Definition profile (content : bytes) (bs : list line) : Prop :=
  exists first rest, content = join [nl] (first :: rest) /\ Forall (fun l => ~ In nl l) (first :: rest) /\
    (((exists r, first = #"mode:" ++ r) /\ reads rest bs) \/ ((~ exists r, first = #"mode:" ++ r) /\ reads (first :: rest) bs)).

(** ** Proofs *)
Lemma digit_iff c : is_digit c = true <-> digit c.
Proof. unfold is_digit, digit. rewrite andb_true_iff, !Nat.leb_le. reflexivity. Qed.
Lemma value_app d c : value (d ++ [c]) = (10 * value d + Z.of_nat (nat_of_ascii c - 48))%Z.
Proof. unfold value. rewrite rev_app_distr. cbn [rev app value_rev]. lia. Qed.
Lemma value_digits d : digits_value d = value d.
Proof.
  induction d as [|c d IH] using rev_ind; [reflexivity|]. rewrite value_app, <- IH. unfold digits_value.
  rewrite fold_left_app. reflexivity.
Qed.
Lemma forall_digits d : forallb is_digit d = true <-> Forall digit d.
Proof. rewrite forallb_forall, Forall_forall. split; intros H x I; apply digit_iff, H, I. Qed.

Lemma parse_int_number s z : parse_int s = Some z <-> number s z.
Proof.
  unfold parse_int, number.
  assert (G : forall neg d z, match d with [] => None | _ => if negb (forallb is_digit d) then None else
      let v := digits_value d in if neg : bool then (if (v <=? 2 ^ 63)%Z then Some (- v)%Z else None) else (if (v <? 2 ^ 63)%Z then Some v else None) end = Some z
      <-> d <> [] /\ Forall digit d /\ (if neg then z = (- value d)%Z /\ (- 2 ^ 63 <= z)%Z else z = value d /\ (z < 2 ^ 63)%Z)).
  { intros neg d y. destruct d as [|c d]; [split; [discriminate|intros (N & _); congruence]|].
    rewrite <- forall_digits. cbv zeta. rewrite value_digits. set (v := value (c :: d)). clearbody v.
    destruct (forallb is_digit (c :: d)); cbn [negb]; [|split; [discriminate|intros (_ & ? & _); discriminate]].
    destruct neg.
    - destruct (v <=? 2 ^ 63)%Z eqn:E; [apply Z.leb_le in E|apply Z.leb_gt in E].
      + split; [intros H; injection H as <-|intros (_ & _ & -> & _); auto]. repeat split; try discriminate. lia.
      + split; [discriminate|]. intros (_ & _ & -> & H). lia.
    - destruct (v <? 2 ^ 63)%Z eqn:E; [apply Z.ltb_lt in E|apply Z.ltb_ge in E].
      + split; [intros H; injection H as <-|intros (_ & _ & -> & _); auto]. repeat split; try discriminate. lia.
      + split; [discriminate|]. intros (_ & _ & -> & H). lia. }
  assert (S : forall c d, digit c -> c :: d <> [] /\ c <> "-"%char /\ c <> "+"%char).
  { intros c d H. repeat split; try discriminate; intros ->; unfold digit in H; vm_compute in H; lia. }
  destruct s as [|c r].
  - cbn beta iota. split; [discriminate|]. intros (d & N & _ & [[[H|H] _]|[H _]]); congruence.
  - destruct (eqc c "-"%char) eqn:E1; [apply eqc_eq in E1; subst c|apply eqc_neq in E1; destruct (eqc c "+"%char) eqn:E2; [apply eqc_eq in E2; subst c|apply eqc_neq in E2]].
    + eapply iff_trans; [exact (G true r z)|]. split.
      * intros (N & F & H). exists r. split; [auto|]. split; [auto|]. right. auto.
      * intros (d & N & F & [[[H|H] _]|[H K]]); [|discriminate|injection H as ->; auto].
        subst d. inversion F as [|? ? D]; subst. now apply (S _ []) in D as (_ & ? & _).
    + eapply iff_trans; [exact (G false r z)|]. split.
      * intros (N & F & H). exists r. split; [auto|]. split; [auto|]. left. auto.
      * intros (d & N & F & [[[H|H] K]|[H K]]); [|injection H as ->; auto|discriminate].
        subst d. inversion F as [|? ? D]; subst. now apply (S _ []) in D as (_ & _ & ?).
    + eapply iff_trans; [exact (G false (c :: r) z)|]. split.
      * intros (N & F & H). exists (c :: r). split; [auto|]. split; [auto|]. left. auto.
      * intros (d & N & F & [[[H|H] K]|[H K]]); [subst d; auto|congruence|congruence].
Qed.

Lemma reads_some ls bs : reads ls bs <-> some_lines ls = bs.
Proof.
  split.
  - induction 1 as [|p c z ls bs N H _ IH|p c ls bs N H _ IH|l ls bs N _ IH]; cbn [some_lines]; auto; unfold parse_line.
    + rewrite cut_last_some by auto. apply parse_int_number in H. now rewrite H, IH.
    + rewrite cut_last_some by auto. destruct (parse_int c) as [z|] eqn:E; [apply parse_int_number in E; now apply H in E|now rewrite IH].
    + rewrite cut_last_none by auto. exact IH.
  - revert bs. induction ls as [|l ls IH]; intros bs <-; [constructor|]. cbn [some_lines]. unfold parse_line.
    destruct (cut_last " "%char l) as [[p c]|] eqn:C.
    + apply cut_last_sound in C as [-> N]. destruct (parse_int c) as [z|] eqn:E.
      * apply RNumber; auto. now apply parse_int_number.
      * apply RBad; auto. intros z H. apply parse_int_number in H. congruence.
    + apply cut_last_none_inv in C. apply RSkip; auto.
Qed.

(** Every file has exactly one reading, and it is what is read. *)
Theorem C30_reading :
  forall content bs, profile content bs <-> snd (parse_profile content) = bs.
Proof.
  intros content bs. unfold profile, parse_profile. split.
  - intros (first & rest & -> & F & H). rewrite split_join by (auto; discriminate).
    destruct H as [[M R]|[M R]].
    + destruct M as [r ->]. rewrite has_prefix_app. cbn [snd]. now apply reads_some.
    + destruct (has_prefix first #"mode:") eqn:P; [apply has_prefix_iff in P; contradiction|]. cbn [snd]. now apply reads_some.
  - intros <-. pose proof (join_split nl content) as J. pose proof (split_nonempty nl content) as NE.
    assert (F : Forall (fun l => ~ In nl l) (split nl content)) by (apply Forall_forall; intros x; apply split_no_sep).
    destruct (split nl content) as [|first rest]; [congruence|]. exists first, rest. split; [auto|]. split; [auto|].
    destruct (has_prefix first #"mode:") eqn:P; cbn [snd].
    + left. split; [now apply has_prefix_iff|now apply reads_some].
    + right. split; [intros M; apply has_prefix_iff in M; congruence|now apply reads_some].
Qed.
Print Assumptions C30_reading.

(** The command, for all files and exclusions: the blocks read, merged, but for those whose
    position starts with an excluded prefix. *)
Theorem C30_command_exact :
  forall contents profiles exclude keep,
    Forall2 profile contents profiles ->
    (forall l, keep l = true <-> ~ exists p r, In p exclude /\ fst l = p ++ r) ->
    merge_cover contents exclude = format_profile #"count" (filter keep (merged (concat profiles))).
Proof.
  intros contents profiles exclude keep F K. rewrite C30_command. f_equal.
  replace (map (fun c => snd (parse_profile c)) contents) with profiles.
  - apply filter_ext. intros l. apply eq_true_iff_eq. rewrite K, negb_true_iff, <- not_true_iff_false.
    unfold has_any_prefix. rewrite existsb_exists. apply not_iff_compat. split.
    + intros (p & I & H). apply has_prefix_iff in H as [r H]. eauto.
    + intros (p & r & I & H). exists p. split; auto. apply has_prefix_iff. eauto.
  - clear K. induction F as [|c b cs bs H _ IH]; auto. cbn [map]. apply C30_reading in H. congruence.
Qed.
Print Assumptions C30_command_exact.

(** The mode is the rest of the first line without surrounding white space. *)
Definition white (c : ascii) : Prop := In (nat_of_ascii c) [9; 10; 11; 12; 13; 32].
Theorem C44_mode :
  forall w1 mode w2 rest, Forall white w1 -> Forall white w2 ->
    ~ In nl (w1 ++ mode ++ w2) -> (forall c r, mode = c :: r -> ~ white c) -> (forall r c, mode = r ++ [c] -> ~ white c) ->
    fst (parse_profile (#"mode:" ++ w1 ++ mode ++ w2 ++ nl :: rest)) = mode.
Proof.
  intros w1 mode w2 rest F1 F2 N A B.
  assert (W : forall c, is_space c = true <-> white c).
  { intros c. unfold is_space, white. rewrite existsb_exists. split; [intros (n & I & E); apply Nat.eqb_eq in E; now subst|intros I; exists (nat_of_ascii c); now rewrite Nat.eqb_refl]. }
  assert (L : forall w s, Forall white w -> trim_left (w ++ s) = trim_left s).
  { intros w s F. induction F as [|c w H F IH]; auto. cbn [app trim_left]. apply W in H. now rewrite H. }
  assert (D : forall s, (forall c r, s = c :: r -> ~ white c) -> trim_left s = s).
  { intros [|c s] H; auto. cbn [trim_left]. destruct (is_space c) eqn:E; auto. apply W in E. exfalso. eapply H; eauto. }
  unfold parse_profile.
  assert (Sp : split nl (#"mode:" ++ w1 ++ mode ++ w2 ++ nl :: rest) = (#"mode:" ++ w1 ++ mode ++ w2) :: split nl rest).
  { assert (Nf : ~ In nl (#"mode:" ++ w1 ++ mode ++ w2)).
    { intros I. apply in_app_or in I as [I|I]; auto. simpl in I. intuition discriminate. }
    rewrite <- (join_split nl rest) at 1.
    assert (E : #"mode:" ++ w1 ++ mode ++ w2 ++ nl :: join [nl] (split nl rest) = join [nl] ((#"mode:" ++ w1 ++ mode ++ w2) :: split nl rest)).
    { pose proof (split_nonempty nl rest). destruct (split nl rest); [congruence|]. cbn [join]. now rewrite <- !app_assoc. }
    rewrite E. apply split_join; [discriminate|]. constructor; auto. apply Forall_forall; intros x; apply split_no_sep. }
  rewrite Sp, has_prefix_app. cbn [fst]. change (skipn 5 (#"mode:" ++ w1 ++ mode ++ w2)) with (w1 ++ mode ++ w2).
  unfold trim_space. rewrite L by auto. destruct mode as [|c m].
  - cbn [app]. rewrite <- (app_nil_r w2), L by auto. reflexivity.
  - rewrite (D ((c :: m) ++ w2)) by (intros c' r E; injection E as <- _; now apply (A c m)).
    rewrite rev_app_distr, L by (now apply Forall_rev).
    rewrite D; [apply rev_involutive|]. intros c' r E. apply (B (rev r)). rewrite <- (rev_involutive (c :: m)), E. reflexivity.
Qed.
Print Assumptions C44_mode.

Example C30_reading_example :
  profile (#"mode: set" ++ nl :: #"a.go:1.2,3.4 1 +7" ++ nl :: #"x" ++ nl :: #"b 1 q") [(#"a.go:1.2,3.4 1", 7%Z); (#"b 1", 0%Z)] /\
  profile #"a 1 5" [(#"a 1", 5%Z)].
Proof. split; apply C30_reading; vm_compute; reflexivity. Qed.
