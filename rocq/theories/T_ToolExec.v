(** * Programs for go build -toolexec (C117-C119) *)
From Coq Require Import Ascii String List Arith Bool Lia.
From Verif Require Import M_Str P_Str M_Version M_Download T_Download M_ToolExec.
Import ListNotations.
Open Scope nat_scope.
Open Scope list_scope.

(** ** C117: exec_tool *)
(** Specification: the flags before --, each with what it says. *)
Inductive flags : list bytes -> bool -> bytes -> Prop :=
  | f_none : flags [] false []
  | f_enable l e d : flags l e d -> flags (l ++ [#"--enable"]) true d
  | f_quiet l e d w : In w [#"--log-compile"; #"--test-compile"; #"--debug-with-dlv"] -> flags l e d -> flags (l ++ [w]) e d
  | f_debug l e d v : flags l e d -> flags (l ++ [#"--debug"; v]) e v
  | f_debug_eq l e d v : flags l e d -> flags (l ++ [#"--debug=" ++ v]) e v.
Definition has_word (args : list bytes) (w : bytes) : Prop := exists a, In a args /\ (a = w \/ exists v, a = w ++ #"=" ++ v).
(** the word after the first -p *)
Definition package_of (args : list bytes) (pkg : bytes) : Prop := exists a b, args = a ++ #"-p" :: pkg :: b /\ ~ In #"-p" a.
Definition is_compiler (cmd : bytes) : Prop := cmd = #"compile" \/ exists d, cmd = d ++ #"/compile".

Lemma parse_flags l e d : flags l e d ->
  exists o', o_enable o' = e /\ o_debug o' = d /\ forall rest n, length l <= n -> exists n', n - length l <= n' /\ parseOptions n (l ++ rest) no_options = parseOptions n' rest o'.
Proof.
  intros F. induction F as [|l e d F (o & E & D & H)|l e d w W F (o & E & D & H)|l e d v F (o & E & D & H)|l e d v F (o & E & D & H)].
  - exists no_options. repeat split. intros rest n L. exists n. split; [lia|reflexivity].
  - eexists {| o_enable := true |}. split; [reflexivity|]. split; [|intros rest n L; rewrite app_length in L; cbn [length] in L; destruct (H (#"--enable" :: rest) n) as (n' & N & X); [lia|]; rewrite <- app_assoc; cbn [app]; rewrite X; destruct n' as [|n']; [lia|]; exists n'; split; [rewrite app_length; cbn; lia|reflexivity]]. exact D.
  - destruct W as [<- |[<- |[<- |[]]]].
    + eexists {| o_log := true |}. split; [|split; [|intros rest n L; rewrite app_length in L; cbn [length] in L; destruct (H (#"--log-compile" :: rest) n) as (n' & N & X); [lia|]; rewrite <- app_assoc; cbn [app]; rewrite X; destruct n' as [|n']; [lia|]; exists n'; split; [rewrite app_length; cbn; lia|reflexivity]]]; [exact E|exact D].
    + eexists {| o_testCompile := true |}. split; [|split; [|intros rest n L; rewrite app_length in L; cbn [length] in L; destruct (H (#"--test-compile" :: rest) n) as (n' & N & X); [lia|]; rewrite <- app_assoc; cbn [app]; rewrite X; destruct n' as [|n']; [lia|]; exists n'; split; [rewrite app_length; cbn; lia|reflexivity]]]; [exact E|exact D].
    + eexists {| o_dlv := true |}. split; [|split; [|intros rest n L; rewrite app_length in L; cbn [length] in L; destruct (H (#"--debug-with-dlv" :: rest) n) as (n' & N & X); [lia|]; rewrite <- app_assoc; cbn [app]; rewrite X; destruct n' as [|n']; [lia|]; exists n'; split; [rewrite app_length; cbn; lia|reflexivity]]]; [exact E|exact D].
  - eexists {| o_debug := v |}. split; [|split; [|intros rest n L; rewrite app_length in L; cbn [length] in L; destruct (H (#"--debug" :: v :: rest) n) as (n' & N & X); [lia|]; rewrite <- app_assoc; cbn [app]; rewrite X; destruct n' as [|n']; [lia|]; exists n'; split; [rewrite app_length; cbn; lia|reflexivity]]]; [exact E|reflexivity].
  - eexists {| o_debug := v |}. split; [|split; [|intros rest n L; rewrite app_length in L; cbn [length] in L; destruct (H ((#"--debug=" ++ v) :: rest) n) as (n' & N & X); [lia|]; rewrite <- app_assoc; change ([#"--debug=" ++ v] ++ rest) with ((#"--debug=" ++ v) :: rest); rewrite X; destruct n' as [|n']; [lia|]; exists n'; split; [rewrite app_length; cbn; lia|reflexivity]]]; [exact E|reflexivity].
Qed.
Lemma has_flag_spec args w : hasFlag args w = true <-> has_word args w.
Proof.
  unfold hasFlag, has_word. rewrite existsb_exists. split; intros (a & I & H); exists a; (split; [exact I|]).
  - apply orb_true_iff in H as [H|H]; [left; now apply eqs_eq|right]. apply has_prefix_iff in H as [v ->]. exists v. now rewrite <- app_assoc.
  - apply orb_true_iff. destruct H as [-> |[v ->]]; [left; apply eqs_refl|right]. apply has_prefix_iff. exists v. now rewrite <- app_assoc.
Qed.
Lemma package_found args pkg : package_of args pkg -> findArgAfterFlag args #"-p" = pkg.
Proof.
  intros (a & b & -> & N). induction a as [|x a IH].
  - reflexivity.
  - cbn [app findArgAfterFlag]. destruct (eqs x #"-p") eqn:E; [apply eqs_eq in E; exfalso; apply N; now left|]. apply IH. intros I. apply N. now right.
Qed.
Lemma last_slash s : ~ In slash s \/ exists a b, s = a ++ slash :: b /\ ~ In slash b.
Proof.
  induction s as [|c s IH]; [left; intros []|]. destruct IH as [N|(a & b & -> & N)]; [|right; exists (c :: a), b; auto].
  destruct (Ascii.ascii_dec c slash) as [-> |D]; [right; exists [], s; auto|left; intros [X|X]; auto].
Qed.
Lemma last_app {A} (l m : list A) d : m <> [] -> last (l ++ m) d = last m d.
Proof. intros N. induction l as [|x l IH]; auto. cbn [app]. rewrite <- IH. destruct (l ++ m) eqn:E; auto. apply app_eq_nil in E as [_ ->]. congruence. Qed.
Lemma compiler_spec cmd : isCompileCommand cmd = true <-> is_compiler cmd.
Proof.
  unfold isCompileCommand, base, is_compiler. rewrite eqs_eq.
  assert (N0 : ~ In slash #"compile") by (intros I; vm_compute in I; intuition discriminate).
  split.
  - intros H. destruct (last_slash cmd) as [N|(a & b & -> & N)].
    + rewrite split_noc in H by auto. left. exact H.
    + right. exists a. rewrite T_Download.split_app, (split_noc slash b N), last_app in H by discriminate. cbn [last] in H. now subst b.
  - intros [-> |[d ->]]; [reflexivity|]. change (d ++ #"/compile") with (d ++ slash :: #"compile"). rewrite T_Download.split_app, (split_noc slash #"compile" N0), last_app by discriminate. reflexivity.
Qed.
(** Of what go build runs through exec_tool, everything but the compiler is run as it is, and
    so is the compiler that is asked for its version; another compilation is run by the
    compiler that xgo built, if there is one, with the same arguments, and enabled exactly if
    the environment or else --enable says so. *)
Theorem C117_tools (env : bytes -> option bytes) (l : list bytes) (enable : bool) (debug cmd : bytes) (args : list bytes) : flags l enable debug -> cmd <> [] ->
  (~ is_compiler cmd \/ has_word args #"-V" -> Main env (l ++ #"--" :: cmd :: args) = Runs cmd args [])
  /\ (is_compiler cmd -> ~ has_word args #"-V" -> forall pkg, package_of args pkg -> pkg <> [] -> debug <> #"all" -> debug <> pkg -> env #"XGO_DEBUG_COMPILE_PKG" = None ->
      exists bin on, Main env (l ++ #"--" :: cmd :: args) = Runs bin args [#"XGO_COMPILER_ENABLE=" ++ on; #"COMPILER_ALLOW_SYNTAX_REWRITE=true"; #"COMPILER_ALLOW_IR_REWRITE=true"]
        /\ (forall b, env #"XGO_COMPILER_BIN" = Some b -> b <> [] -> bin = b) /\ (env #"XGO_COMPILER_BIN" = None -> bin = cmd)
        /\ (forall v, env #"XGO_COMPILER_ENABLE" = Some v -> on = v) /\ (env #"XGO_COMPILER_ENABLE" = None -> on = if enable then #"true" else [])).
Proof.
  intros F C. destruct (parse_flags l enable debug F) as (o & E & D & H).
  assert (P : parseOptions (length (l ++ #"--" :: cmd :: args)) (l ++ #"--" :: cmd :: args) no_options =
    Some {| o_enable := enable; o_log := o_log o; o_debug := debug; o_dlv := o_dlv o; o_testCompile := o_testCompile o; o_remain := cmd :: args |}).
  { destruct (H (#"--" :: cmd :: args) (length (l ++ #"--" :: cmd :: args))) as (n & N & X); [rewrite app_length; lia|]. rewrite X. rewrite app_length in N. cbn [length] in N.
    destruct n as [|n]; [lia|]. subst enable debug. reflexivity. }
  unfold Main. rewrite P. cbn [o_remain]. destruct cmd as [|c0 cmd0] eqn:Cm; [congruence|]. rewrite <- Cm in *. clear Cm. split.
  - intros [N|V].
    + replace (isCompileCommand cmd) with false; [reflexivity|]. symmetry. apply not_true_iff_false. now rewrite compiler_spec.
    + apply has_flag_spec in V. unfold handleCompile. rewrite V. now destruct (isCompileCommand cmd).
  - intros K V pkg Pk Np Na Nd Ne. apply compiler_spec in K. rewrite K. cbn [negb]. unfold handleCompile.
    replace (hasFlag args #"-V") with false by (symmetry; apply not_true_iff_false; now rewrite has_flag_spec).
    rewrite (package_found _ _ Pk). apply eqs_false in Np, Na, Nd. rewrite Np. cbn [o_debug o_enable]. rewrite Na, Nd. cbn [orb]. rewrite andb_false_r. cbv zeta. rewrite Ne. cbn [eqs negb andb].
    eexists _, _. split; [reflexivity|]. repeat split.
    + intros b B N. rewrite B. destruct b; [congruence|reflexivity].
    + intros B. now rewrite B.
    + intros v B. now rewrite B.
    + intros B. now rewrite B.
Qed.
(** An unknown flag is an error. *)
Theorem C117_unknown_flag (env : bytes -> option bytes) (l rest : list bytes) (e : bool) (d w : bytes) : flags l e d -> has_prefix w #"-" = true ->
  ~ In w [#"--"; #"--enable"; #"--log-compile"; #"--test-compile"; #"--debug-with-dlv"; #"--debug"] -> (forall v, w <> #"--debug=" ++ v) -> Main env (l ++ w :: rest) = Fails.
Proof.
  intros F P N E. destruct (parse_flags l e d F) as (o & _ & _ & H). destruct (H (w :: rest) (length (l ++ w :: rest))) as (n & L & X); [rewrite app_length; lia|].
  unfold Main. rewrite X. rewrite app_length in L. cbn [length] in L. destruct n as [|n]; [lia|]. cbn [parseOptions]. rewrite P. cbn [negb].
  assert (Q : forall x, In x [#"--"; #"--enable"; #"--log-compile"; #"--test-compile"; #"--debug-with-dlv"; #"--debug"] -> eqs w x = false) by (intros x I; apply eqs_false; intros ->; auto).
  rewrite !Q by (repeat (try (left; reflexivity); right)). destruct (has_prefix w #"--debug=") eqn:D; [|reflexivity]. apply has_prefix_iff in D as [v ->]. exfalso. now apply (E v).
Qed.
(** Without -- the tool itself is dropped, and its first argument is run in its place. *)
Theorem C117_no_dashes_refuted (env : bytes -> option bytes) (tool arg : bytes) (args : list bytes) :
  has_prefix tool #"-" = false -> arg <> [] -> ~ is_compiler arg -> Main env (tool :: arg :: args) = Runs arg args [].
Proof.
  intros T A N. unfold Main. cbn [length parseOptions]. rewrite T. cbn [negb o_remain]. destruct arg as [|c a] eqn:E; [congruence|]. rewrite <- E in *.
  replace (isCompileCommand arg) with false; [reflexivity|]. symmetry. apply not_true_iff_false. now rewrite compiler_spec.
Qed.
Example C117_nontrivial : flags [#"--enable"; #"--debug"; #"x/y"] true #"x/y" /\ is_compiler #"/go/pkg/tool/linux_amd64/compile" /\ package_of [#"-o"; #"a"; #"-p"; #"fmt"; #"-std"] #"fmt"
  /\ Main (fun _ => None) [#"--enable"; #"--"; #"compile"; #"-p"; #"fmt"; #"a.go"] = Runs #"compile" [#"-p"; #"fmt"; #"a.go"] [#"XGO_COMPILER_ENABLE=true"; #"COMPILER_ALLOW_SYNTAX_REWRITE=true"; #"COMPILER_ALLOW_IR_REWRITE=true"]
  /\ Main (fun _ => None) [#"/t/link"; #"-o"; #"x"] = Runs #"-o" [#"x"] [].
Proof.
  split; [|split; [|split; [|split; reflexivity]]].
  - change [#"--enable"; #"--debug"; #"x/y"] with ([#"--enable"] ++ [#"--debug"; #"x/y"]). eapply f_debug. exact (f_enable [] false [] f_none).
  - right. exists #"/go/pkg/tool/linux_amd64". reflexivity.
  - exists [#"-o"; #"a"], [#"-std"]. split; [reflexivity|]. intros I. vm_compute in I. intuition discriminate.
Qed.
