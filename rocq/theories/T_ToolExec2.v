(** * go-tool-exec insert-trap (C118, C119) *)
From Coq Require Import Ascii String List Arith Bool Lia.
From Verif Require Import M_Str P_Str M_Version M_Download M_ToolExec T_ToolExec.
Import ListNotations.
Open Scope nat_scope.
Open Scope list_scope.

(** ** C118 *)
(** Specification: the flags before --, with the packages they name; the files of a
    compilation are the words after its last flag. *)
Inductive iflags : list bytes -> list bytes -> Prop :=
  | i_none : iflags [] []
  | i_pkg l p ps : p <> [] -> iflags l ps -> iflags (#"--pkg" :: p :: l) (p :: ps)
  | i_pkg_eq l p ps : p <> [] -> iflags l ps -> iflags ((#"--pkg=" ++ p) :: l) (p :: ps)
  | i_verbose l w ps : In w [#"-v"; #"--verbose"] -> iflags l ps -> iflags (w :: l) ps.
Definition is_flag (w : bytes) : Prop := exists r, w = #"-" ++ r.
Definition slashes (p : bytes) : nat := length (filter (fun c => eqc c slash) p).
Definition of_runtime (p : bytes) : Prop := p = #"runtime" \/ exists r, p = #"runtime/" ++ r.
Definition source (f : bytes) : bool := has_suffix f #".go" && negb (has_suffix f #"_test.go").

Lemma iflags_parse l ps : iflags l ps -> forall qs rest, insert_flags (l ++ #"--" :: rest) qs = Some (qs ++ ps, rest).
Proof.
  intros F. induction F as [|l p ps N F IH|l p ps N F IH|l w ps W F IH]; intros qs rest.
  - rewrite app_nil_r. reflexivity.
  - destruct p as [|c p]; [congruence|].
    change (insert_flags ((#"--pkg" :: (c :: p) :: l) ++ #"--" :: rest) qs) with (insert_flags (l ++ #"--" :: rest) (qs ++ [c :: p])). rewrite IH, <- app_assoc. reflexivity.
  - destruct p as [|c p]; [congruence|].
    change (insert_flags (((#"--pkg=" ++ (c :: p)) :: l) ++ #"--" :: rest) qs) with (insert_flags (l ++ #"--" :: rest) (qs ++ [c :: p])). rewrite IH, <- app_assoc. reflexivity.
  - destruct W as [<- |[<- |[]]].
    + change (insert_flags ((#"-v" :: l) ++ #"--" :: rest) qs) with (insert_flags (l ++ #"--" :: rest) qs). apply IH.
    + change (insert_flags ((#"--verbose" :: l) ++ #"--" :: rest) qs) with (insert_flags (l ++ #"--" :: rest) qs). apply IH.
Qed.
Lemma iflags_no_p l ps : iflags l ps -> ~ In #"-p" ps -> ~ In #"-p" l.
Proof.
  intros F. induction F as [|l p ps N F IH|l p ps N F IH|l w ps W F IH]; intros Q I; auto.
  - destruct I as [I|[I|I]]; [discriminate I|apply Q; now left|apply IH in I; auto; intros J; apply Q; now right].
  - destruct I as [I|I]; [discriminate I|apply IH in I; auto; intros J; apply Q; now right].
  - destruct I as [I|I]; [subst w; vm_compute in W; intuition discriminate|auto; now apply IH in I].
Qed.
Lemma compiler_not_p cmd : is_compiler cmd -> cmd <> #"-p".
Proof.
  intros [-> |[d ->]] E; [discriminate|]. apply (f_equal (@length _)) in E. rewrite app_length in E. change (length #"/compile") with 8 in E. change (length #"-p") with 2 in E. lia.
Qed.
Lemma files_start fl files : (fl = [] \/ exists a w, fl = a ++ [w] /\ is_flag w) -> Forall (fun f => ~ is_flag f) files -> findFileStartIndex (rev (fl ++ files)) = length fl.
Proof.
  intros L F. rewrite rev_app_distr. assert (G : Forall (fun f => ~ is_flag f) (rev files)) by now apply Forall_rev. clear F. induction G as [|f r N G IH]; cbn [app].
  - destruct L as [-> |(a & w & -> & [r ->])]; [reflexivity|]. rewrite rev_app_distr. cbn [rev app findFileStartIndex]. rewrite has_prefix_app. cbn [length]. rewrite rev_length, app_length. cbn. lia.
  - cbn [findFileStartIndex]. destruct (has_prefix f #"-") eqn:P; [apply has_prefix_iff in P as [x ->]; exfalso; apply N; now exists x|exact IH].
Qed.
Lemma system_spec p : isSystemPkg p = true <-> of_runtime p \/ slashes p <= 3.
Proof.
  unfold isSystemPkg, of_runtime, slashes. rewrite !orb_true_iff, eqs_eq, Nat.leb_le. split.
  - intros [[H|H]|H]; auto. apply has_prefix_iff in H as [r ->]. left. right. now exists r.
  - intros [[H|[r ->]]|H]; auto.
Qed.
Section Insert.
  Variable place : bytes -> bytes.
  Variable inject : bytes -> option bool.
  Lemma replace_all files : Forall (fun f => source f = true -> inject f <> None) files ->
    replaceWithTmpFiles place inject files = Some (map (fun f => if source f then match inject f with Some true => place f | _ => f end else f) files).
  Proof.
    intros F. induction F as [|f r H F IH]; cbn [replaceWithTmpFiles map]; auto. rewrite IH. unfold replace_file.
    assert (S : negb (has_suffix f #".go") || has_suffix f #"_test.go" = negb (source f)) by (unfold source; destruct (has_suffix f #".go"), (has_suffix f #"_test.go"); reflexivity).
    rewrite S. destruct (source f); cbn [negb]; auto. destruct (inject f) as [[|]|]; auto. exfalso. now apply H.
  Qed.
  (** A compilation of a package that is asked for, by name or because none is named, gets the
      changed files in the places of its sources that have functions, and everything else as
      it was. Missing: packages whose path has at most three slashes (C118_short_refuted). *)
  Theorem C118_insert_partial (l pkgs : list bytes) (cmd pkg : bytes) (fl files : list bytes) :
    iflags l pkgs -> ~ In #"-p" pkgs -> is_compiler cmd -> ~ has_word (fl ++ files) #"-V" -> package_of (fl ++ files) pkg -> pkg <> [] ->
    pkgs = [] \/ In pkg pkgs -> ~ of_runtime pkg -> 3 < slashes pkg ->
    (fl = [] \/ exists a w, fl = a ++ [w] /\ is_flag w) -> Forall (fun f => ~ is_flag f) files -> Forall (fun f => source f = true -> inject f <> None) files ->
    exists files', handleInsertTrap place inject (l ++ #"--" :: cmd :: fl ++ files) = Runs cmd (fl ++ files') []
      /\ Forall2 (fun f f' => f' = if source f then match inject f with Some true => place f | _ => f end else f) files files'.
  Proof.
    intros F NP C V P NE W R S L FF FI. exists (map (fun f => if source f then match inject f with Some true => place f | _ => f end else f) files). split.
    - unfold handleInsertTrap. rewrite (iflags_parse l pkgs F). cbn [app].
      assert (PK : findArgAfterFlag (l ++ #"--" :: cmd :: fl ++ files) #"-p" = pkg).
      { apply package_found. destruct P as (a & b & E & N). exists (l ++ #"--" :: cmd :: a), b. rewrite E, <- app_assoc. split; [reflexivity|]. intros I. apply in_app_iff in I as [I|[I|[I|I]]].
        - revert I. now apply (iflags_no_p l pkgs).
        - discriminate.
        - revert I. now apply compiler_not_p.
        - auto. }
      apply compiler_spec in C. rewrite C. cbn [negb]. replace (hasFlag (fl ++ files) #"-V") with false by (symmetry; apply not_true_iff_false; now rewrite has_flag_spec).
      rewrite PK. apply eqs_false in NE. rewrite NE. replace (isSystemPkg pkg) with false by (symmetry; apply not_true_iff_false; rewrite system_spec; intros [H|H]; [auto|lia]).
      replace (negb (length pkgs =? 0) && negb (existsb (fun p => eqs p pkg) pkgs)) with false.
      2:{ symmetry. destruct W as [-> |I]; [reflexivity|]. replace (existsb (fun p => eqs p pkg) pkgs) with true; [apply andb_false_r|]. symmetry. apply existsb_exists. exists pkg. split; auto. apply eqs_refl. }
      cbv zeta. rewrite files_start by auto. rewrite skipn_app, skipn_all, Nat.sub_diag, firstn_app, firstn_all, Nat.sub_diag. cbn [skipn firstn app]. rewrite app_nil_r, replace_all by auto. reflexivity.
    - clear. induction files; constructor; auto.
  Qed.
  (** Everything else is run as it is. *)
  Theorem C118_others (l pkgs : list bytes) (cmd pkg : bytes) (args : list bytes) : iflags l pkgs -> ~ In #"-p" pkgs ->
    ~ is_compiler cmd \/ has_word args #"-V" \/ (is_compiler cmd /\ package_of args pkg /\ pkg <> [] /\ (of_runtime pkg \/ (pkgs <> [] /\ ~ In pkg pkgs))) ->
    handleInsertTrap place inject (l ++ #"--" :: cmd :: args) = Runs cmd args [].
  Proof.
    intros F NP H. unfold handleInsertTrap. rewrite (iflags_parse l pkgs F). cbn [app]. destruct H as [N|[V|(C & P & NE & H)]].
    - replace (isCompileCommand cmd) with false; [reflexivity|]. symmetry. apply not_true_iff_false. now rewrite compiler_spec.
    - apply has_flag_spec in V. rewrite V. now destruct (isCompileCommand cmd).
    - assert (PK : findArgAfterFlag (l ++ #"--" :: cmd :: args) #"-p" = pkg).
      { apply package_found. destruct P as (a & b & E & N). exists (l ++ #"--" :: cmd :: a), b. rewrite E, <- app_assoc. split; [reflexivity|]. intros I. apply in_app_iff in I as [I|[I|[I|I]]].
        - revert I. now apply (iflags_no_p l pkgs).
        - discriminate.
        - revert I. now apply compiler_not_p.
        - auto. }
      apply compiler_spec in C. rewrite C. cbn [negb]. rewrite PK. apply eqs_false in NE. rewrite NE. destruct (hasFlag args #"-V"); [reflexivity|]. destruct (isSystemPkg pkg) eqn:S; [reflexivity|].
      destruct H as [R|[N1 N2]]; [exfalso; assert (X : isSystemPkg pkg = true) by (apply system_spec; auto); congruence|].
      replace (length pkgs =? 0) with false by (symmetry; apply Nat.eqb_neq; destruct pkgs; [congruence|discriminate]).
      replace (existsb (fun p => eqs p pkg) pkgs) with false; [reflexivity|]. symmetry. apply not_true_iff_false. intros X. apply existsb_exists in X as (p & I & E). apply eqs_eq in E. subst. auto.
  Qed.
  (** A package whose path has few slashes, like example.com/app, is never changed, not even if
      it is named. *)
  Theorem C118_short_refuted (cmd pkg : bytes) (args : list bytes) : is_compiler cmd -> package_of args pkg -> pkg <> [] -> pkg <> #"-p" -> slashes pkg <= 3 ->
    handleInsertTrap place inject (#"--pkg" :: pkg :: #"--" :: cmd :: args) = Runs cmd args [].
  Proof.
    intros C P NE N S. assert (F : iflags [#"--pkg"; pkg] [pkg]) by (apply i_pkg; [auto|constructor]).
    unfold handleInsertTrap. change (#"--pkg" :: pkg :: #"--" :: cmd :: args) with ([#"--pkg"; pkg] ++ #"--" :: cmd :: args). rewrite (iflags_parse _ _ F). cbn [app].
    assert (PK : findArgAfterFlag (#"--pkg" :: pkg :: #"--" :: cmd :: args) #"-p" = pkg).
    { apply package_found. destruct P as (a & b & E & Na). exists (#"--pkg" :: pkg :: #"--" :: cmd :: a), b. rewrite E. split; [reflexivity|]. intros [I|[I|[I|[I|I]]]]; try discriminate I; auto. revert I. now apply compiler_not_p. }
    apply compiler_spec in C. rewrite C. cbn [negb]. rewrite PK. apply eqs_false in NE. rewrite NE. replace (isSystemPkg pkg) with true by (symmetry; apply system_spec; auto). now destruct (hasFlag args #"-V").
  Qed.
  (** The flag of the usage that selects functions is always an error. *)
  Theorem C118_func_refuted (l pkgs rest : list bytes) (f : bytes) : iflags l pkgs ->
    handleInsertTrap place inject (l ++ #"--func" :: f :: rest) = Fails /\ handleInsertTrap place inject (l ++ (#"--func=" ++ f) :: rest) = Fails.
  Proof.
    intros F. assert (G : forall w, insert_flags [w] [] = None -> (forall qs r, insert_flags (w :: r) qs = None) -> forall qs r, insert_flags (l ++ w :: r) qs = None).
    { intros w _ W. induction F as [|l p ps N F IH|l p ps N F IH|l v ps V F IH]; intros qs r; [apply W| | |].
      - destruct p as [|c p]; [congruence|]. change (insert_flags ((#"--pkg" :: (c :: p) :: l) ++ w :: r) qs) with (insert_flags (l ++ w :: r) (qs ++ [c :: p])). auto.
      - destruct p as [|c p]; [congruence|]. change (insert_flags (((#"--pkg=" ++ (c :: p)) :: l) ++ w :: r) qs) with (insert_flags (l ++ w :: r) (qs ++ [c :: p])). auto.
      - destruct V as [<- |[<- |[]]]; [change (insert_flags ((#"-v" :: l) ++ w :: r) qs) with (insert_flags (l ++ w :: r) qs)|change (insert_flags ((#"--verbose" :: l) ++ w :: r) qs) with (insert_flags (l ++ w :: r) qs)]; auto. }
    unfold handleInsertTrap. split; rewrite G; auto.
  Qed.
End Insert.
Example C118_nontrivial : handleInsertTrap (fun f => #"/tmp/x/" ++ f) (fun _ => Some true) [#"-v"; #"--pkg=a/b/c/d/e"; #"--"; #"/t/compile"; #"-p"; #"a/b/c/d/e"; #"-pack"; #"x.go"; #"x_test.go"]
    = Runs #"/t/compile" [#"-p"; #"a/b/c/d/e"; #"-pack"; #"/tmp/x/x.go"; #"x_test.go"] []
  /\ iflags [#"-v"; #"--pkg=a/b/c/d/e"] [#"a/b/c/d/e"] /\ slashes #"example.com/app" <= 3.
Proof.
  split; [reflexivity|]. split; [|vm_compute; lia]. apply i_verbose; [now left|]. apply (i_pkg_eq [] #"a/b/c/d/e" []); [discriminate|constructor].
Qed.

(** ** C119: concurrent compilations *)
(** [under d f]: the file lies in d or below *)
Definition under (d : dir) (f : file) : Prop := exists r, fst f = d ++ r.
Lemma below_spec d e : below d e = true <-> exists r, e = d ++ r.
Proof.
  revert e. induction d as [|x d IH]; intros e; cbn [below]; [split; [intros _; exists e; reflexivity|reflexivity]|]. destruct e as [|y e]; [split; [intros H; discriminate H|intros (r & H); discriminate H]|].
  rewrite andb_true_iff, eqs_eq, IH. split; [intros [-> (r & ->)]; exists r; reflexivity|intros (r & [= -> ->]); split; [reflexivity|exists r; reflexivity]].
Qed.
Lemma dir_eq d e : dir_eqb d e = true <-> d = e.
Proof.
  unfold dir_eqb. rewrite andb_true_iff, !below_spec. split.
  - intros [(r & ->) (s & H)]. rewrite <- app_assoc in H. rewrite <- (app_nil_r d) in H at 1. apply app_inv_head in H. symmetry in H. apply app_eq_nil in H as [-> _]. now rewrite app_nil_r.
  - intros ->. split; exists []; now rewrite app_nil_r.
Qed.
Definition run (l : list (bool * act)) (fs : list file) : list file := fold_left (fun fs a => exec (snd a) fs) l fs.
(** what is left to do keeps the files written so far, and writes the others first *)
Fixpoint safe (need have : list file) (rem : list act) : Prop :=
  match rem with
  | [] => True
  | Compile :: r => (forall f, In f need -> In f have) /\ safe need have r
  | Put f :: r => safe need (f :: have) r
  | Clear d :: r => (forall f, In f have -> ~ under d f) /\ safe need have r
  end.
Lemma acts_safe todo : forall seen have need,
  (forall f, In f have -> In (fst f) seen) -> (forall f, In f need -> In f have \/ In f todo) ->
  (forall f g, In f todo -> In g (have ++ todo) -> fst f <> fst g -> ~ under (fst f) g) -> safe need have (acts seen todo).
Proof.
  induction todo as [|g r IH]; intros seen have need D A N; cbn [acts].
  - cbn [safe]. split; auto. intros f I. destruct (A f I) as [|[]]; auto.
  - assert (Y : forall seen', In (fst g) seen' -> (forall d, In d seen -> In d seen') -> safe need (g :: have) (acts seen' r)).
    { intros seen' G S. apply IH.
      - intros f [<- |I]; auto.
      - intros f I. destruct (A f I) as [J|[<- |J]]; [left; now right|left; now left|now right].
      - intros f h I J. apply N; [now right|]. cbn [app] in J. destruct J as [<- |J]; [apply in_or_app; right; now left|]. apply in_app_iff in J as [J|J]; apply in_or_app; [auto|right; now right]. }
    destruct (existsb (fun d => dir_eqb d (fst g)) seen) eqn:X; cbn [safe].
    + apply Y; auto. apply existsb_exists in X as (d & I & E). apply dir_eq in E. now subst d.
    + split; [|apply Y; [now left|intros d I; now right]]. intros f I. apply N; [now left|apply in_or_app; auto|].
      intros E. assert (W : existsb (fun d => dir_eqb d (fst g)) seen = true) by (apply existsb_exists; exists (fst f); split; [auto|now apply dir_eq]). congruence.
Qed.
Lemma kept need l : forall have fs l1 l2, (forall f, In f have -> In f fs /\ In f need) -> (forall d, In (false, Clear d) l -> forall f, In f need -> ~ under d f) ->
  (forall f, In (true, Put f) l -> In f need) -> safe need have (map snd (filter fst l)) -> l = l1 ++ (true, Compile) :: l2 -> forall f, In f need -> In f (run l1 fs).
Proof.
  induction l as [|[m a] l IH]; intros have fs l1 l2 H O P S E f I; [destruct l1; discriminate|].
  destruct l1 as [|x l1]; cbn [app] in E; [injection E as -> -> E2|injection E as E1 E2].
  - cbn [filter fst map snd safe] in S. apply H. now apply S.
  - subst x. cbn [run fold_left snd]. fold (run l1 (exec a fs)).
    assert (O' : forall d, In (false, Clear d) l -> forall f, In f need -> ~ under d f) by (intros d J; apply O; now right).
    assert (P' : forall f, In (true, Put f) l -> In f need) by (intros g J; apply P; now right).
    destruct m; cbn [filter fst map snd] in S.
    + destruct a as [d|g|]; cbn [safe] in S.
      * destruct S as [S1 S2]. apply (IH have _ l1 l2); auto. intros h J. destruct (H h J) as [Y Z]. split; auto. cbn [exec]. apply filter_In. split; auto. apply negb_true_iff, not_true_iff_false. intros B. apply below_spec in B. revert B. now apply S1.
      * apply (IH (g :: have) _ l1 l2); auto. intros h [<- |J]; [split; [now left|apply P; now left]|]. destruct (H h J). split; auto. now right.
      * destruct S as [_ S]. apply (IH have _ l1 l2); auto.
    + apply (IH have _ l1 l2); auto. intros h J. destruct (H h J) as [Y Z]. split; auto. destruct a as [d|g|]; cbn [exec]; auto; [|now right].
      apply filter_In. split; auto. apply negb_true_iff, not_true_iff_false. intros B. apply below_spec in B. apply (O d (or_introl eq_refl) h); auto.
Qed.
Lemma acts_puts todo : forall seen f, In (Put f) (acts seen todo) -> In f todo.
Proof.
  induction todo as [|g r IH]; intros seen f I; cbn [acts] in I; [destruct I as [I|[]]; discriminate|]. destruct (existsb _ seen).
  - destruct I as [[= <-]|I]; [now left|right; eauto].
  - destruct I as [I|[[= <-]|I]]; [discriminate|now left|right; eauto].
Qed.
(** Whatever other invocations do meanwhile, in whatever order, if they clear no directory
    that is or contains one of mine, my compiler finds all the files written for it. [l] is
    everything that happens, mine marked true. Missing: others on the same or a containing
    directory (C119_same_refuted, C119_parent_refuted). *)
Theorem C119_found_partial (files : list file) (l l1 l2 : list (bool * act)) (fs : list file) :
  (forall f g, In f files -> In g files -> fst f <> fst g -> ~ under (fst f) g) ->
  map snd (filter fst l) = acts [] files -> (forall d, In (false, Clear d) l -> forall f, In f files -> ~ under d f) ->
  l = l1 ++ (true, Compile) :: l2 -> forall f, In f files -> In f (run l1 fs).
Proof.
  intros N A O E f I. apply (kept files l [] fs l1 l2); auto.
  - intros g [].
  - intros g J. assert (Q : In (Put g) (map snd (filter fst l))) by (apply in_map_iff; exists (true, Put g); split; auto; apply filter_In; auto). rewrite A in Q. now apply acts_puts in Q.
  - rewrite A. apply acts_safe; [intros g []|auto|]. cbn [app]. auto.
Qed.
(** Two compilations of one directory, the package and the package with its tests, can each
    remove what the other has just written. *)
Theorem C119_same_refuted (d : dir) (a b : bytes) : exists l l1 l2 : list (bool * act),
  map snd (filter fst l) = acts [] [(d, a)] /\ map snd (filter (fun x => negb (fst x)) l) = acts [] [(d, b)] /\ l = l1 ++ (true, Compile) :: l2
  /\ forall fs, a <> b -> ~ In (d, a) (run l1 fs).
Proof.
  exists [(true, Clear d); (true, Put (d, a)); (false, Clear d); (false, Put (d, b)); (true, Compile); (false, Compile)],
    [(true, Clear d); (true, Put (d, a)); (false, Clear d); (false, Put (d, b))], [(false, Compile)].
  repeat split. intros fs N. cbn [run fold_left snd exec]. intros [E|I]; [congruence|]. apply filter_In in I as [_ I]. cbn [fst] in I.
  assert (B : below d d = true) by (apply below_spec; exists []; now rewrite app_nil_r). rewrite B in I. discriminate I.
Qed.
(** So does a compilation of a directory above. *)
Theorem C119_parent_refuted (d : dir) (x a b : bytes) : exists l l1 l2 : list (bool * act),
  map snd (filter fst l) = acts [] [(d ++ [x], a)] /\ map snd (filter (fun x => negb (fst x)) l) = acts [] [(d, b)] /\ l = l1 ++ (true, Compile) :: l2
  /\ forall fs, ~ In (d ++ [x], a) (run l1 fs).
Proof.
  exists [(true, Clear (d ++ [x])); (true, Put (d ++ [x], a)); (false, Clear d); (false, Put (d, b)); (true, Compile); (false, Compile)],
    [(true, Clear (d ++ [x])); (true, Put (d ++ [x], a)); (false, Clear d); (false, Put (d, b))], [(false, Compile)].
  repeat split. intros fs. cbn [run fold_left snd exec]. intros [E|I].
  - injection E as E _. apply (f_equal (@length _)) in E. rewrite app_length in E. cbn in E. lia.
  - apply filter_In in I as [_ I]. cbn [fst] in I. assert (B : below d (d ++ [x]) = true) by (apply below_spec; eauto). rewrite B in I. discriminate I.
Qed.
Example C119_nontrivial : let files := [([#"a"], #"x.go"); ([#"a"], #"y.go")] in
  acts [] files = [Clear [#"a"]; Put ([#"a"], #"x.go"); Put ([#"a"], #"y.go"); Compile]
  /\ (forall f g : file, In f files -> In g files -> fst f <> fst g -> ~ under (fst f) g)
  /\ ~ under [#"b"] ([#"a"], #"x.go").
Proof.
  cbv zeta. split; [reflexivity|]. split.
  - intros f g [<- |[<- |[]]] [<- |[<- |[]]] N; exfalso; apply N; reflexivity.
  - intros [r H]. discriminate H.
Qed.
