(** * C76, C77: the unified test binary *)
From Coq Require Import Ascii String List Arith Bool Lia.
From Verif Require Import M_Str P_Str M_Coverage M_Instrument T_Instrument2 T_Instrument3 M_Unified.
Import ListNotations.
Open Scope nat_scope.
Open Scope list_scope.

(** ** Specification *)
(** The tests go test would run for the packages, one by one. *)
Definition tests_of (pkgs : list tpkg) : list (tpkg * bytes) := flat_map (fun p => map (pair p) (p_tests p)) pkgs.
Definition alone (p : tpkg) : Prop := p_xtest p = true \/ p_main p = true.
(** Names as Go has them: distinct in a package, identifiers. *)
Definition pkg_ok (p : tpkg) : Prop := NoDup (p_tests p) /\ Forall (fun n => n <> [] /\ ~ In "/"%char n) (p_tests p).
(** No test is called like another one with a number. *)
Definition numbered_name (n x : bytes) : Prop := exists k, 0 < k /\ x = n ++ #"_" ++ itoa k.
Definition no_numbered (pkgs : list tpkg) : Prop := forall p n q x, In (p, n) (tests_of pkgs) -> In (q, x) (tests_of pkgs) -> ~ numbered_name n x.

(** ** C76: which tests run *)
Lemma uniq_refs l : forall dup, map (fun t => (u_pkg t, u_ref t)) (uniq_names l dup) = l.
Proof. induction l as [|[p n] l IH]; intros dup; auto. cbn [uniq_names map u_pkg u_ref]. now rewrite IH. Qed.
Lemma mergeable_alone p : mergeable p = false <-> alone p.
Proof. unfold mergeable, alone. destruct (p_xtest p), (p_main p); cbn; intuition discriminate. Qed.
(** Every test of a package that is merged is in the unified package exactly as often as in its own, and the packages that
    cannot be merged are tested as before. *)
Theorem C76_tests :
  forall pkgs,
    match unify pkgs with
    | Separate ps => ps = pkgs
    | Unified tests extra =>
        (forall p, In p extra <-> In p pkgs /\ alone p) /\
        (exists merged, (forall p, In p merged <-> In p pkgs /\ ~ alone p) /\ length merged + length extra = length pkgs /\
           map (fun t => (u_pkg t, u_ref t)) tests = tests_of merged)
    end.
Proof.
  intros pkgs. unfold unify. destruct (_ <=? 1); [reflexivity|]. split.
  - intros p. rewrite filter_In, negb_true_iff, mergeable_alone. reflexivity.
  - exists (filter mergeable pkgs). split; [intros p; rewrite filter_In, <- mergeable_alone; destruct (mergeable p); intuition congruence|]. split; [|apply uniq_refs].
    induction pkgs as [|p pkgs IH]; auto. cbn [filter length]. destruct (mergeable p); cbn [negb length]; lia.
Qed.
Print Assumptions C76_tests.
(** What else go test runs is not: benchmarks, fuzz targets and examples of merged packages. *)
Theorem C76_others_refuted :
  ~ (forall pkgs tests extra, unify pkgs = Unified tests extra -> forall p n, In p pkgs -> In n (p_others p) -> In p extra \/ exists t, In t tests /\ u_pkg t = p /\ u_ref t = n).
Proof.
  intros H. set (a := {| p_path := #"m/a"; p_dir := #"/m/a"; p_tests := [#"TestA"]; p_others := [#"ExampleA"]; p_xtest := false; p_main := false |}).
  set (b := {| p_path := #"m/b"; p_dir := #"/m/b"; p_tests := [#"TestB"]; p_others := []; p_xtest := false; p_main := false |}).
  destruct (H [a; b] _ _ eq_refl a #"ExampleA") as [[]|(t & I & _ & E)]; [now left|now left|]. cbn in I. destruct I as [<-|[<-|[]]]; discriminate E.
Qed.
Print Assumptions C76_others_refuted.

Lemma us_split (a b : bytes) x y : ~ In "_"%char x -> ~ In "_"%char y -> a ++ #"_" ++ x = b ++ #"_" ++ y -> a = b /\ x = y.
Proof. intros X Y E. pose proof (cut_last_some "_"%char a x X) as P. cbn [app lit list_ascii_of_string] in E. rewrite E, cut_last_some in P by auto. injection P as -> ->. auto. Qed.
Definition label (n : bytes) (j : nat) : bytes := if 0 <? j then n ++ #"_" ++ itoa j else n.
Lemma label_inj n m i j : ~ numbered_name n m -> ~ numbered_name m n -> label n i = label m j -> n = m /\ i = j.
Proof.
  intros N M E. unfold label in E. destruct (0 <? i) eqn:I, (0 <? j) eqn:J; rewrite ?Nat.ltb_lt, ?Nat.ltb_ge in I; rewrite ?Nat.ltb_lt, ?Nat.ltb_ge in J.
  - apply us_split in E as [-> E]; [|apply itoa_no_us|apply itoa_no_us]. apply itoa_inj in E. auto.
  - exfalso. apply N. exists i. split; [exact I|now symmetry].
  - exfalso. apply M. exists j. split; [exact J|exact E].
  - split; [auto|lia].
Qed.
Lemma eqs_false_neq a b : a <> b -> eqs a b = false. Proof. apply eqs_false. Qed.
Lemma uniq_in l : forall dup t, In t (uniq_names l dup) -> exists j, dup (u_ref t) <= j /\ u_name t = label (u_ref t) j.
Proof.
  induction l as [|[p n] l IH]; intros dup t; cbn [uniq_names]; [intros []|]. intros [<-|I].
  - exists (dup n). cbn [u_ref u_name]. split; auto.
  - apply IH in I as (j & L & E). exists j. split; auto. unfold bump in L. destruct (eqs (u_ref t) n); lia.
Qed.
Lemma uniq_nodup l : (forall p n q x, In (p, n) l -> In (q, x) l -> ~ numbered_name n x) -> forall dup, NoDup (map u_name (uniq_names l dup)).
Proof.
  induction l as [|[p n] l IH]; intros H dup; cbn [uniq_names map]; [constructor|]. constructor.
  - cbn [u_name]. intros I. apply in_map_iff in I as (t & E & I). destruct (uniq_in _ _ _ I) as (j & L & E2).
    assert (T : In (u_pkg t, u_ref t) l) by (rewrite <- (uniq_refs l (bump dup n)); apply in_map_iff; exists t; auto).
    rewrite E2 in E. fold (label n (dup n)) in E. apply label_inj in E as [E Ej].
    + rewrite E in L. unfold bump in L. rewrite eqs_refl in L. lia.
    + apply (H (u_pkg t) (u_ref t) p n); [now right|now left].
    + apply (H p n (u_pkg t) (u_ref t)); [now left|now right].
  - apply IH. intros p' n' q x I J. apply (H p' n' q x); now right.
Qed.
Lemma tests_of_filter f pkgs p n : In (p, n) (tests_of (filter f pkgs)) -> In (p, n) (tests_of pkgs).
Proof. unfold tests_of. rewrite !in_flat_map. intros (q & I & J). apply filter_In in I as [I _]. eauto. Qed.
Lemma unified_tests pkgs tests extra : unify pkgs = Unified tests extra -> tests = uniq_names (tests_of (filter mergeable pkgs)) (fun _ => 0).
Proof. unfold unify. destruct (_ <=? 1); [discriminate|]. now intros [= <- _]. Qed.
(** The tests have distinct names, and the test binary compiles; the first test of a name keeps it. *)
Lemma info_none l n : ~ In n (map u_name l) -> info_of l n = None.
Proof. induction l as [|t l IH]; auto. cbn. intros N. rewrite IH by tauto. rewrite eqs_false_neq; auto. Qed.
Lemma info_nodup l : NoDup (map u_name l) -> forall t, In t l -> info_of l (u_name t) = Some t.
Proof.
  induction l as [|t l IH]; intros N u I; [destruct I|]. cbn [map] in N. inversion N; subst. cbn [info_of]. destruct I as [-> |I].
  - rewrite info_none by auto. now rewrite eqs_refl.
  - now rewrite IH.
Qed.
Lemma distinct_nodup l : distinct l = true <-> NoDup l.
Proof.
  induction l as [|x l IH]; [split; [constructor|auto]|]. cbn [distinct]. rewrite andb_true_iff, negb_true_iff, IH. split.
  - intros [E N]. constructor; auto. intros I. assert (existsb (eqs x) l = true) by (apply existsb_exists; exists x; split; auto; apply eqs_refl). congruence.
  - intros N. inversion N; subst. split; auto. destruct (existsb (eqs x) l) eqn:E; auto. apply existsb_exists in E as (y & I & E). apply eqs_eq in E. now subst.
Qed.
Lemma pairs_nodup tests : NoDup (map u_name tests) -> dir_pairs tests = flat_map (fun t => match p_dir (u_pkg t) with [] => [] | d => [(u_name t, d)] end) tests.
Proof.
  intros N. unfold dir_pairs. assert (G : forall l, incl l tests -> flat_map (fun t => match info_of tests (u_name t) with Some i => match p_dir (u_pkg i) with [] => [] | d => [(u_name t, d)] end | None => [] end) l = flat_map (fun t => match p_dir (u_pkg t) with [] => [] | d => [(u_name t, d)] end) l).
  { induction l as [|t l IH]; intros I; auto. cbn [flat_map]. rewrite IH by (intros x J; apply I; now right). rewrite (info_nodup tests N t) by (apply I; now left). reflexivity. }
  apply G. apply incl_refl.
Qed.
Theorem C76_names_partial :
  forall pkgs tests extra, no_numbered pkgs -> unify pkgs = Unified tests extra ->
    NoDup (map u_name tests) /\ compiles tests = true.
Proof.
  intros pkgs tests extra H U. apply unified_tests in U. assert (N : NoDup (map u_name tests)).
  { rewrite U. apply uniq_nodup. intros p n q x I J. apply (H p n q x); eapply tests_of_filter; eassumption. }
  split; auto. unfold compiles. rewrite pairs_nodup by auto. apply distinct_nodup. clear U. induction tests as [|t l IH]; [constructor|]. cbn [map flat_map] in *. inversion N as [|? ? N1 N2]; subst.
  assert (K : forall x, In x (map fst (flat_map (fun t => match p_dir (u_pkg t) with [] => [] | d => [(u_name t, d)] end) l)) -> In x (map u_name l)).
  { intros x I. apply in_map_iff in I as ([a b] & <- & I). apply in_flat_map in I as (u & J & I). destruct (p_dir (u_pkg u)); [destruct I|]. destruct I as [I|[]]. injection I as <- _. cbn. now apply in_map. }
  destruct (p_dir (u_pkg t)); cbn [app map fst]; auto. constructor; auto.
Qed.
Print Assumptions C76_names_partial.
(** A test that is called like another one with a number keeps the test binary from being built. *)
Definition pk (path : string) (tests : list bytes) : tpkg := {| p_path := lit path; p_dir := #"/" ++ lit path; p_tests := tests; p_others := []; p_xtest := false; p_main := false |}.
Theorem C76_names_refuted :
  ~ (forall pkgs tests extra, Forall pkg_ok pkgs -> unify pkgs = Unified tests extra -> compiles tests = true).
Proof.
  intros H. assert (K : Forall pkg_ok [pk "m/a" [#"TestA"; #"TestA_1"]; pk "m/b" [#"TestA"]]).
  { repeat constructor; try discriminate; vm_compute; intuition discriminate. }
  specialize (H _ _ _ K eq_refl). vm_compute in H. discriminate H.
Qed.
Print Assumptions C76_names_refuted.
Lemma start_fst pairs keep par : forall tests cwd, let '(ran, waiting, _) := start_tests pairs keep par tests cwd in
  forall t, In t (map fst ran ++ waiting) <-> In t tests /\ keep (u_name t) = true.
Proof.
  induction tests as [|t l IH]; intros cwd; cbn [start_tests]; [intros t; cbn; tauto|].
  specialize (IH (match dir_of pairs (u_name t) with [] => cwd | d => d end)). destruct (start_tests pairs keep par l _) as [[ran waiting] last]. destruct (keep (u_name t)) eqn:K; cbn [negb].
  - destruct (par t); intros x; specialize (IH x); rewrite in_app_iff in *; cbn [map In fst]; intuition (subst; auto).
  - intros x. specialize (IH x). rewrite IH. cbn [In]. intuition (subst; congruence).
Qed.
Lemma run_in tests keep par cwd t : In t (map fst (run_tests tests keep par cwd)) <-> In t tests /\ keep (u_name t) = true.
Proof.
  unfold run_tests. pose proof (start_fst (dir_pairs tests) keep par tests cwd) as H. destruct (start_tests _ keep par tests cwd) as [[ran waiting] last].
  rewrite map_app, map_map. cbn [fst]. rewrite map_id. apply H.
Qed.
(** With -run, the tests that run are those whose name is selected, if a number after a name makes no
    difference to the selection. *)
Theorem C76_run_partial :
  forall pkgs tests extra keep par cwd, unify pkgs = Unified tests extra ->
    (forall n x, numbered_name n x -> keep x = keep n) ->
    forall p n, In p pkgs -> ~ alone p -> In n (p_tests p) ->
      (keep n = true <-> exists t, In t (map fst (run_tests tests keep par cwd)) /\ u_pkg t = p /\ u_ref t = n).
Proof.
  intros pkgs tests extra keep par cwd U K p n I A J.
  assert (L : forall t, In t tests -> keep (u_name t) = keep (u_ref t)).
  { intros t T. apply unified_tests in U. rewrite U in T. apply uniq_in in T as (j & _ & ->). unfold label. destruct (0 <? j) eqn:Z; auto. apply K. exists j. split; auto. now apply Nat.ltb_lt. }
  split.
  - intros Kn. assert (T : In (p, n) (map (fun t => (u_pkg t, u_ref t)) tests)).
    { apply unified_tests in U. rewrite U, uniq_refs. unfold tests_of. apply in_flat_map. exists p. split; [apply filter_In; split; auto; destruct (mergeable p) eqn:M; auto; apply mergeable_alone in M; contradiction|now apply in_map]. }
    apply in_map_iff in T as (t & E & T). injection E as E1 E2. exists t. split; auto. apply run_in. split; auto. rewrite L, E2; auto.
  - intros (t & T & _ & <-). apply run_in in T as [T E]. now rewrite L in E.
Qed.
Print Assumptions C76_run_partial.
(** But -run '^TestA$' runs it in one package only. *)
Theorem C76_run_refuted :
  ~ (forall pkgs tests extra keep par cwd, Forall pkg_ok pkgs -> no_numbered pkgs -> unify pkgs = Unified tests extra ->
       forall p n, In p pkgs -> ~ alone p -> In n (p_tests p) -> keep n = true -> exists t, In t (map fst (run_tests tests keep par cwd)) /\ u_pkg t = p /\ u_ref t = n).
Proof.
  intros H. set (pkgs := [pk "m/a" [#"TestA"]; pk "m/b" [#"TestA"]]).
  assert (K : Forall pkg_ok pkgs) by (repeat constructor; try discriminate; vm_compute; intuition discriminate).
  assert (N : no_numbered pkgs). { intros p n q x I J (k & _ & E). assert (T : forall p n, In (p, n) (tests_of pkgs) -> n = #"TestA") by (intros p' n' [E'|[E'|[]]]; injection E' as _ <-; reflexivity). apply T in I. apply T in J. subst n x. apply (f_equal (@length ascii)) in E. rewrite !app_length in E. cbn in E. lia. }
  destruct (H pkgs _ _ (eqs #"TestA") (fun _ => false) [] K N eq_refl (pk "m/b" [#"TestA"]) #"TestA") as (t & I & E & _); auto.
  - right. now left.
  - intros [A|A]; discriminate A.
  - now left.
  - vm_compute in I. destruct I as [<-|[]]. vm_compute in E. discriminate E.
Qed.
Print Assumptions C76_run_refuted.

(** ** C77: what is said of them, and where they run *)
(** Events of a test and of its subtests are reported for its own package and name. *)
Theorem C77_reported_partial :
  forall pkgs tests extra t sub, Forall pkg_ok pkgs -> no_numbered pkgs -> unify pkgs = Unified tests extra -> In t tests -> p_path (u_pkg t) <> [] ->
    sub = [] \/ (exists s, sub = #"/" ++ s) ->
    event_of tests unified_package (u_name t ++ sub) = (p_path (u_pkg t), u_ref t ++ sub).
Proof.
  intros pkgs tests extra t sub P N U T Pa S. destruct (C76_names_partial pkgs tests extra N U) as [D _]. assert (X : u_name t <> [] /\ ~ In "/"%char (u_name t) /\ u_ref t <> []).
  { apply unified_tests in U. assert (R := T). rewrite U in T, R. apply uniq_in in T as (j & _ & ->). apply (in_map (fun t => (u_pkg t, u_ref t))) in R. rewrite uniq_refs in R. apply tests_of_filter in R. unfold tests_of in R.
    apply in_flat_map in R as (p & I & J). apply in_map_iff in J as (n & E & J). injection E as E1 <-. rewrite Forall_forall in P. destruct (P p I) as [_ F]. rewrite Forall_forall in F. destruct (F n J) as [F1 F2].
    unfold label. destruct (0 <? j); auto. split; [destruct n; [congruence|discriminate]|]. split; auto. intros Z. apply in_app_or in Z as [Z|Z]; [auto|]. apply in_app_or in Z as [[Z|[]]|Z]; [discriminate Z|].
    destruct (itoa_spec j) as (_ & G & _). rewrite Forall_forall in G. specialize (G _ Z). discriminate G. }
  destruct X as (X1 & X2 & X3).
  assert (G : get_test_name tests unified_package (u_name t ++ sub) = (p_path (u_pkg t), u_ref t ++ sub)).
  { unfold get_test_name. rewrite eqs_refl. cbn [negb]. destruct S as [-> |[s ->]].
    - assert (E : index (u_name t) #"/" = None) by (apply index_none_iff; intros O; now apply occurs_in in O). rewrite !app_nil_r, E, (info_nodup tests D t T), app_nil_r. reflexivity.
    - assert (E : index (u_name t ++ #"/" ++ s) #"/" = Some (length (u_name t))) by (apply index_unbordered; [apply (unbordered_first "/"%char []); intros []|intros O; now apply occurs_in in O]).
      rewrite E. rewrite firstn_app_exact, skipn_app_exact by reflexivity. rewrite (info_nodup tests D t T). reflexivity. }
  unfold event_of. rewrite G. destruct (u_name t ++ sub) eqn:Z; [destruct (u_name t); [congruence|discriminate]|]. destruct (p_path (u_pkg t)); [congruence|]. destruct (u_ref t); [congruence|reflexivity].
Qed.
Print Assumptions C77_reported_partial.
(** Events of other packages are left alone. *)
Theorem C77_others : forall tests pkg name, pkg <> unified_package -> event_of tests pkg name = (pkg, name).
Proof. intros tests pkg name N. unfold event_of, get_test_name. destruct name; auto. rewrite eqs_false_neq by auto. reflexivity. Qed.
Print Assumptions C77_others.
Lemma dir_nodup tests : NoDup (map u_name tests) -> forall t, In t tests -> dir_of (dir_pairs tests) (u_name t) = p_dir (u_pkg t).
Proof.
  intros N. rewrite pairs_nodup by auto. induction tests as [|u l IH]; intros t I; [destruct I|]. cbn [map] in N. inversion N as [|? ? N1 N2]; subst. cbn [flat_map].
  assert (D : forall a b n, dir_of (a ++ b) n = if existsb (eqs n) (map fst a) then dir_of a n else dir_of b n) by (induction a as [|[m d] a IHa]; intros b n; cbn; auto; destruct (eqs n m); cbn; auto).
  rewrite D. destruct I as [-> |I].
  - destruct (p_dir (u_pkg t)) eqn:E; cbn [map existsb fst].
    + assert (Z : forall l, ~ In (u_name t) (map u_name l) -> dir_of (flat_map (fun t => match p_dir (u_pkg t) with [] => [] | d => [(u_name t, d)] end) l) (u_name t) = []).
      { clear. induction l as [|x l IH]; auto. cbn [map flat_map In]. intros H. destruct (p_dir (u_pkg x)); cbn [app dir_of]; [apply IH; tauto|]. rewrite eqs_false_neq by (intros E; apply H; left; congruence). apply IH. tauto. }
      now apply Z.
    + rewrite eqs_refl. cbn [orb dir_of]. now rewrite eqs_refl.
  - assert (M : u_name t <> u_name u) by (intros E; apply N1; rewrite <- E; now apply in_map). destruct (p_dir (u_pkg u)); cbn [map existsb fst]; [now apply IH|]. rewrite eqs_false_neq by auto. cbn [orb]. now apply IH.
Qed.
Lemma start_dirs pairs keep par : forall tests, (forall t, In t tests -> dir_of pairs (u_name t) = p_dir (u_pkg t) /\ p_dir (u_pkg t) <> []) -> forall cwd t d,
  In (t, d) (fst (fst (start_tests pairs keep par tests cwd))) -> d = p_dir (u_pkg t).
Proof.
  induction tests as [|u l IH]; intros H cwd t d I; [destruct I|]. cbn [start_tests] in I. destruct (H u (or_introl eq_refl)) as [E1 E2]. rewrite E1 in I. destruct (p_dir (u_pkg u)) as [|c r] eqn:E; [congruence|].
  specialize (IH (fun t J => H t (or_intror J)) (c :: r)). destruct (start_tests pairs keep par l (c :: r)) as [[ran waiting] last]. cbn [fst] in *.
  destruct (negb (keep (u_name u))); [now apply IH|]. destruct (par u); [now apply IH|]. destruct I as [I|I]; [|now apply IH]. injection I as <- <-. congruence.
Qed.
(** A test that is not parallel starts in the directory of its package. *)
Theorem C77_directory_partial :
  forall pkgs tests extra keep par cwd, no_numbered pkgs -> unify pkgs = Unified tests extra -> (forall t, In t tests -> p_dir (u_pkg t) <> []) ->
    forall t d, In (t, d) (run_tests tests keep par cwd) -> par t = false -> d = p_dir (u_pkg t).
Proof.
  intros pkgs tests extra keep par cwd N U D t d I P. destruct (C76_names_partial pkgs tests extra N U) as [ND _].
  unfold run_tests in I. pose proof (start_dirs (dir_pairs tests) keep par tests (fun t T => conj (dir_nodup tests ND t T) (D t T)) cwd t d) as S.
  assert (W : forall tests cwd x, In x (snd (fst (start_tests (dir_pairs tests) keep par tests cwd))) -> par x = true).
  { intros ts. generalize (dir_pairs ts). intros pairs. induction ts as [|u l IH]; intros c x J; [destruct J|]. cbn [start_tests] in J. set (c' := match dir_of pairs (u_name u) with [] => c | d => d end) in J. specialize (IH c' x).
    destruct (start_tests pairs keep par l c') as [[ran waiting] last]. cbn [fst snd] in *. destruct (negb (keep (u_name u))); [now apply IH|]. destruct (par u) eqn:Pu; cbn [fst snd] in J; [|now apply IH]. destruct J as [<-|J]; auto. }
  specialize (W tests cwd). destruct (start_tests (dir_pairs tests) keep par tests cwd) as [[ran waiting] last]. cbn [fst snd] in *.
  apply in_app_or in I as [I|I]; [now apply S|]. apply in_map_iff in I as (x & E & J). injection E as -> ->. apply W in J. congruence.
Qed.
Print Assumptions C77_directory_partial.
Example C77_example :
  exists tests extra, let pkgs := [pk "m/a" [#"TestA"; #"TestB"]; pk "m/b" [#"TestA"]; {| p_path := #"m/c"; p_dir := #"/m/c"; p_tests := [#"TestA"]; p_others := []; p_xtest := true; p_main := false |}] in
    Forall pkg_ok pkgs /\ no_numbered pkgs /\ unify pkgs = Unified tests extra /\ map u_name tests = [#"TestA"; #"TestB"; #"TestA_1"] /\
    event_of tests unified_package #"TestA_1/x" = (#"m/b", #"TestA/x").
Proof.
  eexists. eexists. cbv zeta. split; [repeat constructor; try discriminate; vm_compute; intuition discriminate|]. split; [|split; [reflexivity|split; reflexivity]].
  intros p n q x I J (k & _ & E). assert (T : forall p n, In (p, n) (tests_of [pk "m/a" [#"TestA"; #"TestB"]; pk "m/b" [#"TestA"]; {| p_path := #"m/c"; p_dir := #"/m/c"; p_tests := [#"TestA"]; p_others := []; p_xtest := true; p_main := false |}]) -> length n = 5).
  { intros p' n' I'. cbn in I'. repeat (destruct I' as [I'|I']; [injection I' as _ <-; reflexivity|]). destruct I'. }
  apply T in I. apply T in J. apply (f_equal (@length ascii)) in E. rewrite !app_length in E. cbn in E. lia.
Qed.
(** A parallel test runs in the directory of the last package. *)
Theorem C77_directory_refuted :
  ~ (forall pkgs tests extra keep par cwd, Forall pkg_ok pkgs -> no_numbered pkgs -> unify pkgs = Unified tests extra -> (forall t, In t tests -> p_dir (u_pkg t) <> []) ->
       forall t d, In (t, d) (run_tests tests keep par cwd) -> d = p_dir (u_pkg t)).
Proof.
  intros H. set (pkgs := [pk "m/a" [#"TestA"]; pk "m/b" [#"TestB"]]).
  assert (K : Forall pkg_ok pkgs) by (repeat constructor; try discriminate; vm_compute; intuition discriminate).
  assert (N : no_numbered pkgs). { intros p n q x I J (k & _ & E). assert (T : forall p n, In (p, n) (tests_of pkgs) -> length n = 5) by (intros p' n' [E'|[E'|[]]]; injection E' as _ <-; reflexivity). apply T in I. apply T in J. apply (f_equal (@length ascii)) in E. rewrite !app_length in E. cbn in E. lia. }
  specialize (H pkgs _ _ (fun _ => true) (fun _ => true) [] K N eq_refl). specialize (H ltac:(intros t [<-|[<-|[]]]; discriminate) {| u_name := #"TestA"; u_pkg := pk "m/a" [#"TestA"]; u_ref := #"TestA" |} #"/m/b").
  assert (X := H ltac:(now left)). discriminate X.
Qed.
Print Assumptions C77_directory_refuted.
