(** * test.config.json and the commands of the test explorer (C114-C116) *)
From Coq Require Import Ascii String List Arith Bool ZArith Lia.
From Verif Require Import M_Str P_Str M_Version M_Coverage T_Coverage M_TestConfig.
Import ListNotations.
Open Scope nat_scope.
Open Scope list_scope.

(** ** Specification: what a file says. The last value of a key counts; null is as good as
    nothing. *)
Definition says (m : list (bytes * json)) (k : bytes) (v : json) : Prop :=
  v <> JNull /\ exists before after, m = before ++ (k, v) :: after /\ forall w, ~ In (k, w) after.
Definition silent (m : list (bytes * json)) (k : bytes) : Prop := forall v, ~ says m k v.
(** a list of words, or a single one *)
Inductive words : json -> list bytes -> Prop :=
  | w_one s : s <> [] -> words (JStr s) [s]
  | w_none : words (JStr []) []
  | w_list l : words (JArr (map JStr l)) l.
Inductive yes_no : json -> bool -> Prop :=
  | y_bool b : yes_no (JBool b) b
  | y_true : yes_no (JStr #"true") true
  | y_false : yes_no (JStr #"false") false.
(** the fields of an object *)
Definition text_in (m : list (bytes * json)) (k : bytes) (s : bytes) : Prop := (silent m k /\ s = []) \/ says m k (JStr s).
Definition flag_in (m : list (bytes * json)) (k : bytes) (b : bool) : Prop := (silent m k /\ b = false) \/ says m k (JBool b).
Definition texts_in (m : list (bytes * json)) (k : bytes) (l : list bytes) : Prop := (silent m k /\ l = []) \/ exists vs, says m k (JArr vs) /\ Forall2 (fun v s => v = JStr s \/ (v = JNull /\ s = [])) vs l.
Inductive versions : json -> goconf -> Prop :=
  | v_min s : versions (JStr s) {| gc_min := s; gc_max := [] |}
  | v_range m a b : text_in m #"min" a -> text_in m #"max" b -> versions (JObj m) {| gc_min := a; gc_max := b |}.
Inductive rules : json -> list json -> Prop :=
  | r_rules vs l : (forall v s, In v vs -> v <> JStr s) -> l = filter (fun v => match v with JNull => false | _ => true end) vs -> rules (JArr vs) l.
Inductive covers : json -> option covconf -> Prop :=
  | c_yes : covers (JBool true) None
  | c_no c : cc_disabled c = true -> cc_diffWith c = [] -> cc_profile c = [] -> cc_include c = [] -> cc_exclude c = [] -> covers (JBool false) (Some c)
  | c_obj m c : flag_in m #"disabled" (cc_disabled c) -> text_in m #"diff_with" (cc_diffWith c) -> text_in m #"profile" (cc_profile c) -> texts_in m #"include" (cc_include c) -> texts_in m #"exclude" (cc_exclude c) -> covers (JObj m) (Some c).
(** a key that is not set has the default [d], one that is set has the meaning [R] gives it *)
Definition is_key {A} (m : list (bytes * json)) (k : bytes) (d : A) (R : json -> A -> Prop) (a : A) : Prop :=
  (silent m k /\ a = d) \/ exists v, says m k v /\ R v a.
(** the whole file; [B] is the meaning of bypass_go_flags *)
Definition reads (B : json -> bool -> Prop) (m : list (bytes * json)) (c : config) : Prop :=
  is_key m #"env" [] (fun v a => v = JObj a) (c_env c)
  /\ is_key m #"go" None (fun v a => exists g, a = Some g /\ versions v g) (c_go c)
  /\ is_key m #"go_cmd" [] (fun v a => v = JStr a) (c_goCmd c)
  /\ is_key m #"exclude" [] words (c_exclude c)
  /\ is_key m #"flags" [] words (c_flags c)
  /\ is_key m #"args" [] words (c_args c)
  /\ is_key m #"bypass_go_flags" false B (c_bypass c)
  /\ is_key m #"mock_rules" [] rules (c_mockRules c)
  /\ is_key m #"xgo" None (fun v a => exists o b, v = JObj o /\ a = Some b /\ flag_in o #"auto_update" b) (c_xgo c)
  /\ is_key m #"coverage" None covers (c_coverage c).

(** ** Proofs *)
Lemma member_none k m : member k m = None <-> forall v, ~ In (k, v) m.
Proof.
  induction m as [|[k' v'] r IH]; cbn [member]; [split; auto; intros _ v []|]. destruct (member k r) eqn:M.
  - split; [discriminate|]. intros H. exfalso. assert (X : Some j = None) by (apply IH; intros v I; apply (H v); now right). discriminate X.
  - destruct (eqs k' k) eqn:E.
    + apply eqs_eq in E. subst. split; [discriminate|]. intros H. exfalso. apply (H v'). now left.
    + apply eqs_false in E. split; auto. intros _ v [I|I]; [congruence|]. revert I. now apply IH.
Qed.
Lemma member_some k m v : member k m = Some v <-> exists before after, m = before ++ (k, v) :: after /\ forall w, ~ In (k, w) after.
Proof.
  induction m as [|[k' v'] r IH]; cbn [member]; [split; [discriminate|intros ([|] & ? & ? & _); discriminate]|].
  destruct (member k r) as [w|] eqn:M.
  - split.
    + intros [= ->]. destruct (proj1 IH eq_refl) as (b & a & -> & N). exists ((k', v') :: b), a. auto.
    + intros (b & a & E & N). destruct b as [|x b]; cbn [app] in E; injection E as E1 E2.
      * exfalso. subst a. assert (X : member k r = None) by now apply member_none. rewrite M in X. discriminate X.
      * apply IH. eauto.
  - destruct (eqs k' k) eqn:E.
    + apply eqs_eq in E. subst k'. split.
      * intros [= ->]. exists [], r. split; auto. now apply member_none.
      * intros (b & a & E & N). destruct b as [|x b]; cbn [app] in E; injection E as E1 E2; [congruence|]. exfalso. pose proof (proj1 (member_none k r) M v) as X. apply X. rewrite E2. apply in_or_app. right. now left.
    + apply eqs_false in E. split; [discriminate|]. intros (b & a & E' & N). destruct b as [|x b]; cbn [app] in E'; injection E' as E1 E2; [congruence|]. exfalso. pose proof (proj1 (member_none k r) M v) as X. apply X. rewrite E2. apply in_or_app. right. now left.
Qed.
Lemma set_some k m v : set_value k m = Some v <-> says m k v.
Proof.
  unfold set_value, says. rewrite <- member_some. split.
  - destruct (member k m) as [w|]; [destruct w|]; intros H; try discriminate H; injection H as <-; (split; [discriminate|reflexivity]).
  - intros [N H]. rewrite H. destruct v; auto. congruence.
Qed.
Lemma set_none k m : set_value k m = None <-> silent m k.
Proof.
  unfold silent. split.
  - intros H v S. apply set_some in S. congruence.
  - intros H. destruct (set_value k m) as [v|] eqn:E; auto. exfalso. apply (H v). now apply set_some.
Qed.
Lemma key_spec {A} k m (d : A) f R : (forall v a, f v = Some a <-> R v a) -> forall a, key k m d f = Some a <-> is_key m k d R a.
Proof.
  intros H a. unfold key, is_key. destruct (set_value k m) as [v|] eqn:E.
  - split.
    + intros F. right. exists v. split; [now apply set_some|now apply H].
    + intros [[S _]|(w & S & F)]; [apply set_none in S; congruence|]. apply set_some in S. rewrite E in S. injection S as <-. now apply H.
  - split.
    + intros [= <-]. left. split; auto. now apply set_none.
    + intros [[_ ->]|(w & S & _)]; auto. apply set_some in S. congruence.
Qed.
Lemma bind_some {A B} (x : option A) (f : A -> option B) b : bind x f = Some b <-> exists a, x = Some a /\ f a = Some b.
Proof. destruct x as [a|]; cbn [bind]; split; [eauto|intros (a' & [= ->] & F); auto|discriminate|intros (a' & X & _); discriminate]. Qed.
Lemma map_opt_all {A B} (f : A -> option B) l l' : map_opt f l = Some l' <-> Forall2 (fun a b => f a = Some b) l l'.
Proof.
  revert l'. induction l as [|a r IH]; intros l'; cbn [map_opt].
  - split; [intros [= <-]; constructor|]. intros H. inversion H. auto.
  - rewrite bind_some. split.
    + intros (b & F & H). apply bind_some in H as (bs & M & [= <-]). constructor; auto. now apply IH.
    + intros H. inversion H as [|? b ? bs F G]; subst. exists b. split; auto. apply bind_some. exists bs. split; auto. now apply IH.
Qed.
Lemma strs_all l l' : map_opt as_str l = Some l' <-> l = map JStr l'.
Proof.
  rewrite map_opt_all. split.
  - intros H. induction H as [|a b l l' F H IH]; auto. cbn [map]. rewrite <- IH. destruct a; try discriminate. injection F as ->. reflexivity.
  - intros ->. induction l' as [|b r IH]; cbn [map]; constructor; auto.
Qed.
Lemma words_spec v a : v <> JNull -> toStringList v = Some a <-> words v a.
Proof.
  intros N. destruct v as [|b|z|s|l|m]; cbn [toStringList]; try (split; [discriminate|intros H; inversion H; fail]).
  - congruence.
  - destruct s as [|c s]; (split; [intros [= <-]|intros H; inversion H; subst; auto; congruence]); [apply w_none|apply w_one; discriminate].
  - rewrite strs_all. split; [intros ->; constructor|intros H; inversion H; auto].
Qed.
Lemma exclude_spec v a : parse_exclude v = Some a <-> words v a.
Proof.
  destruct v as [|b|z|s|l|m]; cbn [parse_exclude]; try (split; [discriminate|intros H; inversion H; fail]).
  - destruct s as [|c s]; (split; [intros [= <-]|intros H; inversion H; subst; auto; congruence]); [apply w_none|apply w_one; discriminate].
  - now apply words_spec.
Qed.
Lemma text_spec m k s : field_str k m = Some s <-> text_in m k s.
Proof.
  unfold field_str, text_in. destruct (set_value k m) as [v|] eqn:E.
  - pose proof (proj1 (set_some k m v) E) as S. destruct v; (split; [intros H; try discriminate H; injection H as <-; auto|intros [[N _]|H]; [exfalso; now apply (N _ S)|apply set_some in H; rewrite E in H; try discriminate H; injection H as <-; auto]]).
  - pose proof (proj1 (set_none k m) E) as S. split; [intros [= <-]; auto|]. intros [[_ ->]|H]; auto. exfalso. now apply (S _ H).
Qed.
Lemma flag_spec m k b : field_bool k m = Some b <-> flag_in m k b.
Proof.
  unfold field_bool, flag_in. destruct (set_value k m) as [v|] eqn:E.
  - pose proof (proj1 (set_some k m v) E) as S. destruct v; (split; [intros H; try discriminate H; injection H as <-; auto|intros [[N _]|H]; [exfalso; now apply (N _ S)|apply set_some in H; rewrite E in H; try discriminate H; injection H as <-; auto]]).
  - pose proof (proj1 (set_none k m) E) as S. split; [intros [= <-]; auto|]. intros [[_ ->]|H]; auto. exfalso. now apply (S _ H).
Qed.
Lemma texts_spec m k l : field_strs k m = Some l <-> texts_in m k l.
Proof.
  unfold field_strs, texts_in. destruct (set_value k m) as [v|] eqn:E.
  - pose proof (proj1 (set_some k m v) E) as S.
    assert (X : forall vs l, map_opt (fun v => match v with JStr s => Some s | JNull => Some [] | _ => None end) vs = Some l <-> Forall2 (fun v s => v = JStr s \/ (v = JNull /\ s = [])) vs l).
    { intros vs l'. rewrite map_opt_all. split; intros H; (induction H as [|a b ? ? F H IH]; constructor; auto).
      - destruct a; try discriminate; injection F as <-; auto.
      - destruct F as [-> |[-> ->]]; auto. }
    split.
    + intros H. right. destruct v; try discriminate H. eexists. split; [exact S|]. now apply X.
    + intros [[N _]|(vs & H & F)]; [exfalso; now apply (N _ S)|]. apply set_some in H. rewrite E in H. injection H as ->. now apply X.
  - pose proof (proj1 (set_none k m) E) as S. split; [intros [= <-]; auto|]. intros [[_ ->]|(vs & H & _)]; auto. exfalso. now apply (S _ H).
Qed.
Lemma go_spec v g : parse_go v = Some g <-> versions v g.
Proof.
  destruct v; cbn [parse_go]; try (split; [discriminate|intros H; inversion H; fail]).
  - split; [intros [= <-]; constructor|intros H; inversion H; auto].
  - rewrite bind_some. split.
    + intros (a & A & H). apply bind_some in H as (b & B & [= <-]). constructor; now apply text_spec.
    + intros H. inversion H as [|? a b A B]; subst. exists a. split; [now apply text_spec|]. apply bind_some. exists b. split; [now apply text_spec|reflexivity].
Qed.
Lemma rules_spec v a : v <> JNull -> toMarshaledStrings v = Some a <-> rules v a.
Proof.
  intros N. destruct v as [|b|z|s|vs|m]; cbn [toMarshaledStrings]; try (split; [discriminate|intros H; inversion H; fail]); [congruence|].
  rewrite bind_some. setoid_rewrite map_opt_all. split.
  - intros (ls & F & [= <-]). constructor.
    + intros v s I ->. apply in_split in I as (x & y & ->). apply Forall2_app_inv_l in F as (? & ? & _ & F & _). inversion F as [|? ? ? ? E]. discriminate E.
    + clear N. induction F as [|v b vs ls E F IH]; cbn [concat filter]; auto. rewrite IH. destruct v; try discriminate E; injection E as <-; reflexivity.
  - intros H. inversion H as [? ? S ->]; subst. clear H. exists (map (fun v => match v with JNull => [] | _ => [v] end) vs). split.
    + clear N. induction vs as [|v vs IH]; cbn [map]; constructor; [|apply IH; intros w s I; apply (S w s); now right].
      destruct v; auto. exfalso. apply (S (JStr s) s); auto. now left.
    + f_equal. clear N S. induction vs as [|v vs IH]; cbn [map concat filter]; auto. rewrite <- IH. destruct v; reflexivity.
Qed.
Lemma xgo_spec v b : parse_xgo v = Some b <-> exists o, v = JObj o /\ flag_in o #"auto_update" b.
Proof.
  destruct v as [| | | | |m]; cbn [parse_xgo]; try (split; [discriminate|intros (o & H & _); discriminate]).
  rewrite flag_spec. split; [eauto|]. intros (o & [= ->] & F). auto.
Qed.
Lemma coverage_spec v a : parse_coverage v = Some a <-> covers v a.
Proof.
  destruct v as [|[|]| | | |m]; cbn [parse_coverage]; try (split; [discriminate|intros H; inversion H; fail]).
  - split; [intros [= <-]; constructor|intros H; inversion H; auto].
  - split; [intros [= <-]; now constructor|intros H; inversion H as [|c D W P Q R|]; subst; auto]. destruct c; cbn in *; subst; auto.
  - split.
    + intros H. repeat (apply bind_some in H as (? & ? & H)). injection H as <-. constructor; cbn [cc_disabled cc_diffWith cc_profile cc_include cc_exclude]; first [now apply flag_spec|now apply text_spec|now apply texts_spec].
    + intros H. inversion H as [| |? c A B C D E]; subst. apply flag_spec in A. apply text_spec in B, C. apply texts_spec in D, E. rewrite A, B, C, D, E. cbn [bind]. destruct c; reflexivity.
Qed.
(** what bypass_go_flags is taken for *)
Definition taken (v : json) (b : bool) : Prop := v = JBool b \/ ((v = JStr #"true" \/ v = JStr #"false") /\ b = true).
Lemma bool_spec v b : v <> JNull -> toBoolean v = Some b <-> taken v b.
Proof.
  intros N. unfold taken. destruct v as [|x|z|s|l|m]; cbn [toBoolean]; try (split; [discriminate|intros [H|[[H|H] _]]; discriminate H]).
  - exfalso. now apply N.
  - split; [intros [= <-]; auto|intros [H|[[H|H] _]]; [injection H as <-; reflexivity|discriminate H|discriminate H]].
  - destruct (eqs s #"true") eqn:T; [apply eqs_eq in T; subst; split; [intros [= <-]; auto|intros [H|[_ ->]]; [discriminate|auto]]|].
    destruct (eqs s #"false") eqn:F; [apply eqs_eq in F; subst; split; [intros [= <-]; auto|intros [H|[_ ->]]; [discriminate|auto]]|].
    apply eqs_false in T, F. split; [discriminate|]. intros [H|[[H|H] _]]; [discriminate| |]; exfalso; [apply T|apply F]; apply (f_equal as_str) in H; unfold as_str in H; apply (f_equal (fun o => match o with Some x => x | None => s end)) in H; exact H.
Qed.
Lemma key_spec' {A} k m (d : A) f R : (forall v a, v <> JNull -> f v = Some a <-> R v a) -> forall a, key k m d f = Some a <-> is_key m k d R a.
Proof.
  intros H a. rewrite (key_spec k m d f (fun v a => f v = Some a)) by (intros; reflexivity). unfold is_key. split; (intros [X|(v & S & F)]; [left; exact X|right; exists v; split; auto; apply H; auto; apply S]).
Qed.
Lemma parse_spec m c : Parse (JObj m) = Some c <-> reads taken m c.
Proof.
  unfold Parse, reads. split.
  - intros H. repeat (apply bind_some in H as (? & ? & H)). injection H as <-. cbn [c_env c_go c_goCmd c_exclude c_flags c_args c_bypass c_mockRules c_xgo c_coverage].
    repeat match goal with |- _ /\ _ => split end.
    + eapply key_spec; [|eassumption]. intros v a. destruct v; (split; [intros X; try discriminate X; injection X as <-; reflexivity|intros X; try discriminate X; injection X as <-; reflexivity]).
    + eapply key_spec; [|eassumption]. intros v a. rewrite bind_some. split; [intros (g & G & [= <-]); exists g; split; auto; now apply go_spec|intros (g & -> & G); exists g; split; auto; now apply go_spec].
    + eapply key_spec; [|eassumption]. intros v a. destruct v; (split; [intros X; try discriminate X; injection X as <-; reflexivity|intros X; try discriminate X; injection X as <-; reflexivity]).
    + eapply key_spec; [|eassumption]. apply exclude_spec.
    + eapply key_spec'; [|eassumption]. apply words_spec.
    + eapply key_spec'; [|eassumption]. apply words_spec.
    + eapply key_spec'; [|eassumption]. apply bool_spec.
    + eapply key_spec'; [|eassumption]. apply rules_spec.
    + eapply key_spec; [|eassumption]. intros v a. rewrite bind_some. split; [intros (b & B & [= <-]); apply xgo_spec in B as (o & -> & F); exists o, b; auto|intros (o & b & -> & -> & F); exists b; split; auto; apply xgo_spec; eauto].
    + eapply key_spec; [|eassumption]. apply coverage_spec.
  - intros (E & G & C & X & F & A & B & M & Q & V). destruct c as [f1 f2 f3 f4 f5 f6 f7 f8 f9 f10]. cbn [c_env c_go c_goCmd c_exclude c_flags c_args c_bypass c_mockRules c_xgo c_coverage] in *.
    assert (E' : forall v a, match v with JObj l => Some l | _ => None end = Some a <-> v = JObj a) by (intros v a; destruct v; split; intros Y; try discriminate Y; injection Y as <-; reflexivity).
    assert (C' : forall v a, as_str v = Some a <-> v = JStr a) by (intros v a; destruct v; split; intros Y; try discriminate Y; injection Y as <-; reflexivity).
    assert (G' : forall v a, bind (parse_go v) (fun g => Some (Some g)) = Some a <-> exists g, a = Some g /\ versions v g).
    { intros v a. rewrite bind_some. split; [intros (g & Y & [= <-]); exists g; split; auto; now apply go_spec|intros (g & -> & Y); exists g; split; auto; now apply go_spec]. }
    assert (Q' : forall v a, bind (parse_xgo v) (fun x => Some (Some x)) = Some a <-> exists o b, v = JObj o /\ a = Some b /\ flag_in o #"auto_update" b).
    { intros v a. rewrite bind_some. split; [intros (b & Y & [= <-]); apply xgo_spec in Y as (o & -> & Y); exists o, b; auto|intros (o & b & -> & -> & Y); exists b; split; auto; apply xgo_spec; eauto]. }
    apply (key_spec _ _ _ _ _ E') in E. apply (key_spec _ _ _ _ _ G') in G. apply (key_spec _ _ _ _ _ C') in C. apply (key_spec _ _ _ _ _ exclude_spec) in X.
    apply (key_spec' _ _ _ _ _ words_spec) in F, A. apply (key_spec' _ _ _ _ _ bool_spec) in B. apply (key_spec' _ _ _ _ _ rules_spec) in M. apply (key_spec _ _ _ _ _ Q') in Q. apply (key_spec _ _ _ _ _ coverage_spec) in V.
    repeat (apply bind_some; eexists; split; [eassumption|]). reflexivity.
Qed.
(** ** C114 *)
(** A file is read as what it says, if bypass_go_flags is not the text "false"; what cannot
    be read so is refused, and what it says determines everything. Missing: that text
    (C114_bypass_refuted). *)
Theorem C114_config_partial (m : list (bytes * json)) : ~ says m #"bypass_go_flags" (JStr #"false") ->
  forall c, Parse (JObj m) = Some c <-> reads yes_no m c.
Proof.
  intros N c. rewrite parse_spec. unfold reads.
  assert (X : is_key m #"bypass_go_flags" false taken (c_bypass c) <-> is_key m #"bypass_go_flags" false yes_no (c_bypass c)).
  { unfold is_key. split; (intros [H|(v & S & T)]; [left; exact H|right; exists v; split; auto]).
    - destruct T as [-> |[[-> | ->] ->]]; [constructor|constructor|contradiction].
    - inversion T; subst; [left; auto|right; auto|]. exfalso. apply N. exact S. }
  rewrite X. tauto.
Qed.
(** Keys that are not known do not matter, nor does null. *)
Theorem C114_unknown_keys (m m' : list (bytes * json)) :
  (forall k v, In k [#"env"; #"go"; #"go_cmd"; #"exclude"; #"flags"; #"args"; #"bypass_go_flags"; #"mock_rules"; #"xgo"; #"coverage"] -> says m k v <-> says m' k v) ->
  Parse (JObj m) = Parse (JObj m').
Proof.
  intros H. assert (X : forall k, In k [#"env"; #"go"; #"go_cmd"; #"exclude"; #"flags"; #"args"; #"bypass_go_flags"; #"mock_rules"; #"xgo"; #"coverage"] -> set_value k m = set_value k m').
  { intros k I. destruct (set_value k m) as [v|] eqn:E.
    - symmetry. apply set_some. apply H; auto. now apply set_some.
    - symmetry. apply set_none. intros v S. apply H in S; auto. apply set_some in S. congruence. }
  unfold Parse, key. repeat (rewrite X by (repeat (try (left; reflexivity); right))). reflexivity.
Qed.
(** Something else than an object is refused, null says nothing. *)
Theorem C114_not_an_object (v : json) : (forall m, v <> JObj m) -> Parse v = match v with JNull => Some no_config | _ => None end.
Proof. intros H. destruct v; auto. exfalso. now apply (H l). Qed.
Theorem C114_bypass_refuted (m : list (bytes * json)) (c : config) : says m #"bypass_go_flags" (JStr #"false") -> Parse (JObj m) = Some c -> c_bypass c = true.
Proof.
  intros S H. apply parse_spec in H as (_ & _ & _ & _ & _ & _ & B & _). destruct B as [[N _]|(v & S' & T)]; [exfalso; now apply (N _ S)|].
  apply set_some in S, S'. rewrite S in S'. injection S' as <-. destruct T as [T|[_ T]]; [discriminate|exact T].
Qed.
Example C114_nontrivial : let m := [(#"go_cmd", JStr #"xgo"); (#"go_cmd", JStr #"go"); (#"flags", JArr [JStr #"-p=1"]); (#"args", JStr #"x"); (#"go", JObj [(#"max", JStr #"1.20")]); (#"pre_test", JInt 1); (#"mock_rules", JArr [JNull; JObj []])] in
  (exists c, Parse (JObj m) = Some c /\ c_goCmd c = #"go" /\ c_flags c = [#"-p=1"] /\ c_args c = [#"x"] /\ c_go c = Some {| gc_min := []; gc_max := #"1.20" |} /\ c_mockRules c = [JObj []])
  /\ Parse (JObj [(#"flags", JArr [JInt 1])]) = None.
Proof. split; [eexists; split; [reflexivity|repeat split]|reflexivity]. Qed.
