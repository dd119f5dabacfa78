(** * The version of the toolchain, the module of a directory, the files of packages
    (C110-C113) *)
From Coq Require Import Ascii String List Arith Bool ZArith Lia.
From Verif Require Import M_Str P_Str M_Version M_Coverage T_Coverage M_Download M_GoInfo.
Import ListNotations.
Open Scope nat_scope.
Open Scope list_scope.

(** ** Specification: how a version is written. [pre] is what follows the second number,
    like rc1. *)
Definition count (z : Z) : Prop := (0 <= z < 2 ^ 63)%Z.
Definition is_pre (pre : bytes) : Prop :=
  match pre with [] => True | c :: _ => is_digit c = false end /\ ~ In "."%char pre /\ ~ In " "%char pre.
Definition version_text (a b : Z) (pre : bytes) (patch : option Z) : bytes :=
  format_int a ++ #"." ++ format_int b ++ pre ++ match patch with Some c => #"." ++ format_int c | None => [] end.
Definition patch_of (patch : option Z) : Z := match patch with Some c => c | None => 0%Z end.
Definition said (version os arch : bytes) : bytes := #"go version go" ++ version ++ #" " ++ os ++ #"/" ++ arch.

Lemma count_digits z : count z -> format_int z <> [] /\ Forall (fun c => is_digit c = true) (format_int z).
Proof.
  intros H. unfold format_int. replace (z <? 0)%Z with false by (symmetry; apply Z.ltb_ge; unfold count in H; lia).
  destruct (fmt_log z ltac:(unfold count in H; lia)) as (A & B & _). auto.
Qed.
Lemma count_parse z : count z -> parse_int (format_int z) = Some z.
Proof. intros H. apply parse_format. unfold count in H. unfold int64. lia. Qed.
Lemma digits_no c s : Forall (fun c => is_digit c = true) s -> is_digit c = false -> ~ In c s.
Proof. intros F N I. rewrite Forall_forall in F. specialize (F c I). congruence. Qed.
Lemma take_app d r : Forall (fun c => is_digit c = true) d -> match r with [] => True | c :: _ => is_digit c = false end -> take_digits (d ++ r) = d.
Proof.
  intros F H. induction F as [|c d D F IH]; cbn [app take_digits].
  - destruct r as [|c r]; auto. cbn [take_digits]. now rewrite H.
  - rewrite D. now rewrite IH.
Qed.
Lemma minor_app z pre : count z -> is_pre pre -> minor_text (format_int z ++ pre) = format_int z.
Proof.
  intros C (P & _). destruct (count_digits z C) as [N F]. unfold minor_text. rewrite take_app by auto. destruct (format_int z); [congruence|reflexivity].
Qed.
Lemma number_text a b pre patch : count a -> count b -> is_pre pre -> match patch with Some c => count c | None => True end ->
  ParseGoVersionNumber (version_text a b pre patch) = Some {| v_major := a; v_minor := b; v_patch := patch_of patch; v_os := []; v_arch := [] |}.
Proof.
  intros A B P C. destruct (count_digits a A) as [NA FA], (count_digits b B) as [NB FB]. pose proof P as (P1 & P2 & P3).
  assert (S : split "."%char (version_text a b pre patch) = format_int a :: (format_int b ++ pre) :: match patch with Some c => [format_int c] | None => [] end).
  { unfold version_text. change (#"." ++ format_int b ++ pre ++ match patch with Some c => #"." ++ format_int c | None => [] end)
      with ("."%char :: format_int b ++ pre ++ match patch with Some c => #"." ++ format_int c | None => [] end).
    rewrite split_cons by (now apply digits_no). f_equal.
    assert (Nb : ~ In "."%char (format_int b ++ pre)) by (intros I; apply in_app_iff in I as [I|I]; auto; revert I; now apply digits_no).
    destruct patch as [c|].
    - change (#"." ++ format_int c) with ("."%char :: format_int c). rewrite app_assoc, split_cons by auto. f_equal. apply split_noc. apply digits_no; auto. now apply count_digits.
    - rewrite app_nil_r. now apply split_noc. }
  unfold ParseGoVersionNumber. rewrite S. unfold part. cbn [nth_error Nat.eqb]. rewrite count_parse by auto. rewrite minor_app, count_parse by auto.
  destruct patch as [c|]; cbn [nth_error patch_of]; [rewrite count_parse by auto|]; reflexivity.
Qed.
Lemma said_text version os arch g : ~ In " "%char version -> ~ In "/"%char os -> ParseGoVersionNumber version = Some g ->
  ParseGoVersion (said version os arch) = Some {| v_major := v_major g; v_minor := v_minor g; v_patch := v_patch g; v_os := os; v_arch := arch |}.
Proof.
  intros V O G. unfold ParseGoVersion, said. replace (has_prefix _ #"go version ") with true by (symmetry; change (#"go version go" ++ version ++ #" " ++ os ++ #"/" ++ arch) with (#"go version " ++ #"go" ++ version ++ #" " ++ os ++ #"/" ++ arch); apply has_prefix_app).
  cbv iota. cbn [negb]. change (skipn (length #"go version ") (#"go version go" ++ version ++ #" " ++ os ++ #"/" ++ arch)) with (#"go" ++ version ++ #" " ++ os ++ #"/" ++ arch).
  rewrite has_prefix_app. cbn [negb]. change (skipn 2 (#"go" ++ version ++ #" " ++ os ++ #"/" ++ arch)) with (version ++ #" " ++ os ++ #"/" ++ arch).
  assert (X : forall c a b, ~ In c a -> index (a ++ [c] ++ b) [c] = Some (length a)).
  { clear. intros c a b N. apply (index_least _ [c] a b eq_refl). intros x y E. destruct (le_lt_dec (length a) (length x)) as [L|L]; auto.
    exfalso. symmetry in E. apply app_cut in E as (z & Z1 & Z2); [|lia]. destruct z as [|k z].
    - rewrite app_nil_r in Z1. subst. lia.
    - cbn [app] in Z2. injection Z2 as Z2 _. subst k. apply N. rewrite Z1. apply in_or_app. right. now left. }
  assert (X1 : index (version ++ #" " ++ os ++ #"/" ++ arch) #" " = Some (length version)) by exact (X " "%char version (os ++ #"/" ++ arch) V).
  assert (X2 : index (os ++ #"/" ++ arch) #"/" = Some (length os)) by exact (X "/"%char os arch O).
  rewrite X1. rewrite firstn_app_exact by reflexivity. rewrite G.
  rewrite (app_assoc version), skipn_app_exact by (rewrite app_length; reflexivity). rewrite X2.
  rewrite firstn_app_exact by reflexivity. rewrite app_assoc, skipn_app_exact by (rewrite app_length; reflexivity). reflexivity.
Qed.
Lemma text_blank a b pre patch : count a -> count b -> is_pre pre -> match patch with Some c => count c | None => True end -> ~ In " "%char (version_text a b pre patch).
Proof.
  intros A B (_ & _ & P) C I. unfold version_text in I.
  repeat (apply in_app_iff in I as [I|I]).
  - revert I. apply digits_no; [now apply count_digits|reflexivity].
  - cbn in I. destruct I as [I|[]]. discriminate.
  - revert I. apply digits_no; [now apply count_digits|reflexivity].
  - auto.
  - destruct patch as [c|]; [|destruct I]. apply in_app_iff in I as [I|I]; [cbn in I; destruct I as [I|[]]; discriminate|]. revert I. apply digits_no; [now apply count_digits|reflexivity].
Qed.
(** ** C110 *)
(** What go version says is read back: the numbers, also of beta releases and of releases
    without a third number, the system and the architecture. *)
Theorem C110_version (a b : Z) (pre : bytes) (patch : option Z) (os arch : bytes) :
  count a -> count b -> is_pre pre -> match patch with Some c => count c | None => True end -> ~ In "/"%char os ->
  ParseGoVersion (said (version_text a b pre patch) os arch) = Some {| v_major := a; v_minor := b; v_patch := patch_of patch; v_os := os; v_arch := arch |}
  /\ ParseGoVersionNumber (version_text a b pre patch) = Some {| v_major := a; v_minor := b; v_patch := patch_of patch; v_os := []; v_arch := [] |}.
Proof.
  intros A B P C O. pose proof (number_text a b pre patch A B P C) as N. split; [|exact N].
  rewrite (said_text _ _ _ _ (text_blank a b pre patch A B P C) O N). reflexivity.
Qed.
(** A version that is written out is read back. *)
Theorem C110_string (v : goversion) : count (v_major v) -> count (v_minor v) -> count (v_patch v) -> ~ In "/"%char (v_os v) -> ParseGoVersion (String v) = Some v.
Proof.
  intros A B C O. destruct v as [a b c os arch]. cbn [v_major v_minor v_patch v_os] in *.
  destruct (C110_version a b [] (Some c) os arch) as [H _]; auto; [split; [exact I|split; intros []]|].
  cbn [patch_of] in H. rewrite <- H. unfold String, said, version_text. cbn [v_major v_minor v_patch v_os v_arch app]. f_equal. now rewrite <- !app_assoc.
Qed.
(** What does not say that it is go's, or has no numbers, is refused. *)
Theorem C110_refused (s : bytes) : (forall r, s <> #"go version go" ++ r) -> ParseGoVersion s = None.
Proof.
  intros H. unfold ParseGoVersion. destruct (has_prefix s #"go version ") eqn:P; [|reflexivity]. apply has_prefix_iff in P as [r ->]. cbn [negb].
  rewrite skipn_app_exact by reflexivity. destruct (has_prefix r #"go") eqn:G; [|reflexivity]. apply has_prefix_iff in G as [r' ->]. exfalso. now apply (H r').
Qed.
(** A toolchain with experiments says so before its system, and then the system is wrong. *)
Theorem C110_experiment_refuted (a b c : Z) (experiment os arch : bytes) : count a -> count b -> count c -> ~ In "/"%char experiment -> ~ In "/"%char os ->
  exists v, ParseGoVersion (#"go version go" ++ version_text a b [] (Some c) ++ #" X:" ++ experiment ++ #" " ++ os ++ #"/" ++ arch) = Some v /\ v_os v <> os.
Proof.
  intros A B C E O. destruct (C110_version a b [] (Some c) (#"X:" ++ experiment ++ #" " ++ os) arch) as [H _]; auto.
  - split; [exact I|split; intros []].
  - intros I. apply in_app_iff in I as [I|I]; [cbn in I; intuition discriminate|]. apply in_app_iff in I as [I|I]; [auto|]. apply in_app_iff in I as [I|I]; [cbn in I; intuition discriminate|auto].
  - eexists. split.
    + rewrite <- H. f_equal. unfold said. rewrite <- !app_assoc. reflexivity.
    + cbn [v_os]. intros X. apply (f_equal (@length _)) in X. rewrite !app_length in X. change (length #"X:") with 2 in X. lia.
Qed.
Example C110_nontrivial : option_map (fun v => (v_major v, v_minor v, v_patch v, v_os v)) (ParseGoVersion #"go version go1.23rc1 linux/amd64") = Some (1%Z, 23%Z, 0%Z, #"linux")
  /\ is_pre #"rc1" /\ ParseGoVersion #"go version devel go1.25-abc linux/amd64" = None.
Proof. split; [reflexivity|]. split; [|reflexivity]. split; [reflexivity|]. split; intros I; cbn in I; intuition discriminate. Qed.

(** ** C111: the versions a project asks for *)
Definition at_most (a b a' b' : Z) : Prop := (a < a' \/ (a = a' /\ b <= b'))%Z.
(** a bound is a version, with or without go before it *)
Definition bound (text : bytes) (a b : Z) : Prop := exists pre patch, count a /\ count b /\ is_pre pre /\ match patch with Some c => count c | None => True end
  /\ (text = version_text a b pre patch \/ text = #"go" ++ version_text a b pre patch).
Lemma compare_le v a b m : v_major m = a -> v_minor m = b -> (CompareGoVersion v m true <? 0)%Z = false <-> at_most a b (v_major v) (v_minor v).
Proof.
  intros <- <-. unfold CompareGoVersion, at_most. rewrite Z.ltb_ge. destruct (v_major v =? v_major m)%Z eqn:E; cbn [negb].
  - apply Z.eqb_eq in E. destruct (v_minor v =? v_minor m)%Z eqn:E2; cbn [negb]; [apply Z.eqb_eq in E2|apply Z.eqb_neq in E2]; lia.
  - apply Z.eqb_neq in E. lia.
Qed.
Lemma compare_ge v a b m : v_major m = a -> v_minor m = b -> (0 <? CompareGoVersion v m true)%Z = false <-> at_most (v_major v) (v_minor v) a b.
Proof.
  intros <- <-. unfold CompareGoVersion, at_most. rewrite Z.ltb_ge. destruct (v_major v =? v_major m)%Z eqn:E; cbn [negb].
  - apply Z.eqb_eq in E. destruct (v_minor v =? v_minor m)%Z eqn:E2; cbn [negb]; [apply Z.eqb_eq in E2|apply Z.eqb_neq in E2]; lia.
  - apply Z.eqb_neq in E. lia.
Qed.
Lemma bound_parse t a b : bound t a b -> t <> [] /\ exists m, ParseGoVersionNumber (trim_go t) = Some m /\ v_major m = a /\ v_minor m = b.
Proof.
  intros (pre & patch & A & B & P & C & T). destruct (count_digits a A) as [NA FA].
  assert (N : version_text a b pre patch <> [] /\ has_prefix (version_text a b pre patch) #"go" = false).
  { unfold version_text. destruct (format_int a) as [|x l]; [congruence|]. split; [discriminate|]. cbn [app has_prefix]. inversion FA as [|? ? D _]; subst.
    cbn. destruct (eqc x "g"%char) eqn:E; auto. apply eqc_eq in E. subst x. discriminate D. }
  destruct N as [N G]. assert (X : trim_go t = version_text a b pre patch).
  { unfold trim_go. destruct T as [-> | ->]; [now rewrite G|]. rewrite has_prefix_app. now rewrite skipn_app_exact. }
  split; [destruct T as [-> | ->]; [auto|discriminate]|]. rewrite X. eexists. split; [now apply number_text|]. split; reflexivity.
Qed.
(** A toolchain is accepted exactly when the first two numbers of its version are not below
    those of the lower bound and not above those of the upper one; a bound that is not set
    binds nothing. Missing: the third number (C111_patch_refuted). *)
Theorem C111_bounds_partial (a b : Z) (pre : bytes) (patch : option Z) (os arch lo hi : bytes) (la lb ha hb : Z) :
  count a -> count b -> is_pre pre -> match patch with Some c => count c | None => True end -> ~ In "/"%char os ->
  lo = [] \/ bound lo la lb -> hi = [] \/ bound hi ha hb ->
  (ValidateGoConstraint lo hi (Some (said (version_text a b pre patch) os arch)) = true <-> (lo = [] \/ at_most la lb a b) /\ (hi = [] \/ at_most a b ha hb)).
Proof.
  intros A B P C O L H. destruct (C110_version a b pre patch os arch A B P C O) as [V _].
  unfold ValidateGoConstraint. destruct (eqs lo [] && eqs hi []) eqn:E.
  { apply andb_true_iff in E as [E1 E2]. apply eqs_eq in E1, E2. subst. split; auto. }
  rewrite V. set (v := {| v_major := a; v_minor := b; v_patch := patch_of patch; v_os := os; v_arch := arch |}).
  rewrite andb_true_iff, !negb_true_iff.
  assert (X : negb (eqs lo []) && match ParseGoVersionNumber (trim_go lo) with Some m => (CompareGoVersion v m true <? 0)%Z | None => false end = false <-> lo = [] \/ at_most la lb a b).
  { destruct L as [-> |L]; [cbn [eqs negb andb]; tauto|]. destruct (bound_parse _ _ _ L) as (N & m & -> & M1 & M2). apply eqs_false in N. rewrite N. cbn [negb andb].
    rewrite (compare_le v la lb m M1 M2). cbn [v v_major v_minor]. apply eqs_false in N. tauto. }
  assert (Y : negb (eqs hi []) && match ParseGoVersionNumber (trim_go hi) with Some m => (0 <? CompareGoVersion v m true)%Z | None => false end = false <-> hi = [] \/ at_most a b ha hb).
  { destruct H as [-> |H]; [cbn [eqs negb andb]; tauto|]. destruct (bound_parse _ _ _ H) as (N & m & -> & M1 & M2). apply eqs_false in N. rewrite N. cbn [negb andb].
    rewrite (compare_ge v ha hb m M1 M2). cbn [v v_major v_minor]. apply eqs_false in N. tauto. }
  rewrite X, Y. tauto.
Qed.
Theorem C111_patch_refuted : ValidateGoConstraint #"1.21.5" [] (Some #"go version go1.21.0 linux/amd64") = true /\ ValidateGoConstraint [] #"1.21.5" (Some #"go version go1.21.9 linux/amd64") = true.
Proof. split; reflexivity. Qed.
(** without a toolchain, or with one whose version cannot be read, a bound refuses. *)
Theorem C111_unknown (lo hi : bytes) (out : option bytes) : lo <> [] \/ hi <> [] -> match out with Some s => ParseGoVersion s = None | None => True end -> ValidateGoConstraint lo hi out = false.
Proof.
  intros N H. unfold ValidateGoConstraint. replace (eqs lo [] && eqs hi []) with false by (symmetry; apply andb_false_iff; destruct N as [N|N]; apply eqs_false in N; auto).
  destruct out as [s|]; auto. now rewrite H.
Qed.
Example C111_nontrivial : bound #"go1.20" 1 20 /\ at_most 1 20 1 21 /\ ~ at_most 1 22 1 21
  /\ ValidateGoConstraint #"go1.20" #"1.22" (Some #"go version go1.21.3 linux/amd64") = true /\ ValidateGoConstraint #"1.22" [] (Some #"go version go1.21.3 linux/amd64") = false.
Proof.
  split; [|split; [|split; [|split; reflexivity]]].
  - exists [], None. split; [unfold count; lia|]. split; [unfold count; lia|]. split; [|split; [exact I|right; reflexivity]]. split; [exact I|split; intros []].
  - right. lia.
  - intros [H|[_ H]]; lia.
Qed.

(** ** C112: the module of a directory *)
Section Find.
  Variable stat : list bytes -> mod_stat.
  Lemma find_spec rdir : forall sub res, find_up stat rdir sub = Some res <->
    exists below above, rdir = below ++ above /\ res = (sub ++ below, rev above) /\ stat (rev above) = AFile
      /\ forall k, k < length below -> stat (rev (skipn k rdir)) = NotThere \/ stat (rev (skipn k rdir)) = ADir.
  Proof.
    induction rdir as [|base parent IH]; intros sub res.
    - cbn [find_up]. split.
      + destruct (stat (rev [])) eqn:S; try discriminate. intros [= <-]. exists [], []. split; [reflexivity|]. split; [now rewrite app_nil_r|]. split; [exact S|]. intros k L0. cbn in L0. lia.
      + intros (below & above & E & -> & S & _). symmetry in E. apply app_eq_nil in E as [-> ->]. rewrite S. now rewrite app_nil_r.
    - cbn [find_up]. split.
      + destruct (stat (rev (base :: parent))) eqn:S; intros H; try discriminate.
        1,2: apply IH in H as (below & above & -> & -> & S' & K); exists (base :: below), above; rewrite <- app_assoc; repeat split; auto; intros [|k] L; [auto|apply (K k); cbn in L; lia].
        injection H as <-. exists [], (base :: parent). split; [reflexivity|]. split; [now rewrite app_nil_r|]. split; [exact S|]. intros k L0. cbn in L0. lia.
      + intros (below & above & E & -> & S & K). destruct below as [|x below].
        * cbn [app] in E. subst above. rewrite S. now rewrite app_nil_r.
        * injection E as <- E. pose proof (K 0 ltac:(cbn; lia)) as K0. cbn [skipn] in K0.
          assert (F : find_up stat parent (sub ++ [base]) = Some (sub ++ base :: below, rev above)).
          { apply IH. exists below, above. rewrite <- app_assoc. repeat split; auto. intros k L. apply (K (Datatypes.S k)). cbn. lia. }
          destruct K0 as [-> | ->]; exact F.
  Qed.
  (** The module found is the nearest directory above, or the directory itself, with a file
      go.mod; and the rest of the directory is the path below it, if it is at most one
      directory deep. Missing: deeper ones (C112_order_refuted). *)
  Theorem C112_module_partial (dir : list bytes) (sub root : list bytes) : FindGoModDirSubPath stat dir = Some (sub, root) ->
    stat root = AFile /\ dir = root ++ rev sub
    /\ (forall mid r, dir = mid ++ r -> length root < length mid -> stat mid <> AFile)
    /\ (length sub <= 1 -> walkDir root sub = dir).
  Proof.
    intros H. apply find_spec in H as (below & above & E & [= -> ->] & S & K). apply (f_equal (@rev _)) in E. rewrite rev_involutive, rev_app_distr in E. cbn [app].
    split; [exact S|]. split; [exact E|]. split.
    - intros mid r E' L. assert (Lr : length r < length below). { assert (length dir = length mid + length r) by (rewrite E'; apply app_length). assert (length dir = length (rev above) + length below) by (rewrite E, app_length, !rev_length; reflexivity). lia. }
      specialize (K (length r) Lr). rewrite E', rev_app_distr in K. rewrite skipn_app, skipn_all2 in K by (rewrite rev_length; lia). rewrite rev_length, Nat.sub_diag in K. cbn [skipn app] in K. rewrite rev_involutive in K. destruct K as [-> | ->]; discriminate.
    - intros L. unfold walkDir. rewrite E. f_equal. destruct below as [|x [|y l]]; auto. cbn in L. lia.
  Qed.
  (** It is found if there is one and looking never fails. *)
  Theorem C112_found (dir root r : list bytes) : dir = root ++ r -> stat root = AFile -> (forall d, stat d <> StatError) -> exists sub root', FindGoModDirSubPath stat dir = Some (sub, root').
  Proof.
    intros -> S N. unfold FindGoModDirSubPath. rewrite rev_app_distr. generalize (@nil bytes) as sub. induction (rev r) as [|x l IH]; intros sub.
    - cbn [app]. destruct (rev root) as [|b p] eqn:E; cbn [find_up]; rewrite <- E, rev_involutive, S; eauto.
    - cbn [app find_up]. destruct (stat (rev (x :: l ++ rev root))) eqn:T; eauto. exfalso. eapply N; eauto.
  Qed.
End Find.
(** Two or more directories below the module, their order is reversed: another directory is
    scanned for tests. *)
Theorem C112_order_refuted (root : list bytes) (a b : bytes) (stat : list bytes -> mod_stat) :
  a <> b -> stat root = AFile -> stat (root ++ [a]) = NotThere -> stat (root ++ [a; b]) = NotThere ->
  exists sub, FindGoModDirSubPath stat (root ++ [a; b]) = Some (sub, root) /\ walkDir root sub <> root ++ [a; b].
Proof.
  intros N S0 S1 S2. exists [b; a]. split.
  - apply find_spec. exists [b; a], (rev root). rewrite rev_involutive. split; [now rewrite rev_app_distr|]. split; [reflexivity|]. split; [exact S0|].
    intros [|[|k]] L; cbn in L; try lia; left; rewrite rev_app_distr; cbn [rev app skipn]; rewrite ?rev_app_distr; cbn [rev app]; rewrite rev_involutive, <- ?app_assoc; [exact S2|exact S1].
  - unfold walkDir. intros E. apply app_inv_head in E. congruence.
Qed.
Example C112_nontrivial : let stat := fun d => if list_eq_dec (list_eq_dec Ascii.ascii_dec) d [#"src"; #"proj"] then AFile else NotThere in
  FindGoModDirSubPath stat [#"src"; #"proj"; #"cmd"] = Some ([#"cmd"], [#"src"; #"proj"]) /\ FindGoModDirSubPath stat [#"src"; #"proj"; #"cmd"; #"x"] = Some ([#"x"; #"cmd"], [#"src"; #"proj"]).
Proof. split; reflexivity. Qed.

(** ** C113: the files of packages *)
(** Files are listed in the order of go list, and the ones that are not Go sources are left
    out. Missing: test files of a package of their own (C113_xtest_refuted), and that a
    relative listing is confined to the directory (C113_sibling_refuted). *)
Theorem C113_files_partial (dir : bytes) (pkgs : list package) (f : bytes) :
  In f (lisFiles dir false pkgs) <-> exists p n, In p pkgs /\ (In n (g_files p) \/ In n (g_tests p)) /\ has_suffix n #".go" = true /\ f = (if has_prefix n #"/" then n else Join (g_dir p) n).
Proof.
  unfold lisFiles. rewrite in_flat_map. split.
  - intros (p & P & I). apply in_flat_map in I as (n & N & I). exists p, n. apply in_app_iff in N. destruct (has_suffix n #".go"); [|destruct I]. cbn [negb] in I.
    destruct I as [<- |[]]. auto.
  - intros (p & n & P & N & S & ->). exists p. split; auto. apply in_flat_map. exists n. apply in_app_iff in N. split; auto. rewrite S. cbn [negb]. now left.
Qed.
Theorem C113_relative_partial (dir : bytes) (pkgs : list package) :
  (forall r, r <> [] -> has_prefix r #"/" = false -> In (dir ++ #"/" ++ r) (lisFiles dir false pkgs) -> In r (lisFiles dir true pkgs))
  /\ (forall r, In r (lisFiles dir true pkgs) -> In (dir ++ #"/" ++ r) (lisFiles dir false pkgs) \/ In (dir ++ r) (lisFiles dir false pkgs)).
Proof.
  split.
  - intros r N P I. unfold lisFiles in *. apply in_flat_map in I as (p & Ip & I). apply in_flat_map in I as (n & In_ & I). apply in_flat_map. exists p. split; auto. apply in_flat_map. exists n. split; auto.
    destruct (has_suffix n #".go"); [|destruct I]. cbn [negb] in *. destruct I as [E|[]]. rewrite E. unfold rel_file. rewrite has_prefix_app. cbn [negb]. rewrite skipn_app_exact by reflexivity.
    change (has_prefix (#"/" ++ r) [slash]) with (has_prefix (#"/" ++ r) #"/"). rewrite has_prefix_app. cbv iota. change (skipn 1 (#"/" ++ r)) with r. destruct r; [congruence|now left].
  - intros r I. unfold lisFiles in *. apply in_flat_map in I as (p & Ip & I). apply in_flat_map in I as (n & In_ & I).
    assert (G : forall x, x = abs_file p n -> has_suffix n #".go" = true -> In x (flat_map (fun p => flat_map (fun f => if negb (has_suffix f #".go") then [] else [abs_file p f]) (g_files p ++ g_tests p)) pkgs)).
    { intros x -> S. apply in_flat_map. exists p. split; auto. apply in_flat_map. exists n. split; auto. rewrite S. now left. }
    destruct (has_suffix n #".go"); [|destruct I]. cbn [negb] in I. unfold rel_file in I. destruct (has_prefix (abs_file p n) dir) eqn:P; [|destruct I]. cbn [negb] in I.
    apply has_prefix_iff in P as [z Z]. rewrite Z, skipn_app_exact in I by reflexivity. destruct (has_prefix z [slash]) eqn:Sz.
    + apply has_prefix_iff in Sz as [y ->]. change (skipn 1 ([slash] ++ y)) with y in I. destruct y as [|c y]; [destruct I|]. destruct I as [<- |[]]. left. apply G; auto.
    + destruct z as [|c z]; [destruct I|]. destruct I as [<- |[]]. right. apply G; auto.
Qed.
Theorem C113_sibling_refuted : exists dir pkgs r, In r (lisFiles dir true pkgs) /\ ~ In (dir ++ #"/" ++ r) (lisFiles dir false pkgs).
Proof.
  exists #"/p/a", [{| g_dir := #"/p/ab"; g_files := [#"x.go"]; g_tests := []; g_xtests := [] |}], #"b/x.go". split; [now left|]. intros I. vm_compute in I. destruct I as [I|[]]. discriminate.
Qed.
Theorem C113_xtest_refuted : exists dir p f, In f (g_xtests p) /\ has_suffix f #".go" = true /\ lisFiles dir false [p] = [].
Proof. exists #"/p", {| g_dir := #"/p"; g_files := []; g_tests := []; g_xtests := [#"x_test.go"] |}, #"x_test.go". repeat split; auto. now left. Qed.
Example C113_nontrivial : lisFiles #"/p" true [{| g_dir := #"/p/a"; g_files := [#"x.go"; #"/cache/y.go"; #"z.txt"]; g_tests := [#"x_test.go"]; g_xtests := [] |}] = [#"a/x.go"; #"a/x_test.go"].
Proof. reflexivity. Qed.
