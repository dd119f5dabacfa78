(** * The shadow of the go command (C128) *)
From Coq Require Import Ascii String List Arith Bool Lia.
From Verif Require Import M_Str P_Str M_PathName M_Shadow T_PathName.
Import ListNotations.
Open Scope nat_scope.
Open Scope list_scope.

(** ** Specification *)
Definition plain (cs : list bytes) : Prop := Forall (fun c => c <> [] /\ c <> #"." /\ c <> #".." /\ ~ In slash c) cs.
Section Spec.
  Variable file : list bytes -> option program.
  Variable relative : bytes -> bytes -> bool.
  (** PATH, as a list of directories; [is d cs]: the entry [d] is the directory [cs] *)
  Definition entries (p : process) : list bytes := SplitList (getenv (environ p) #"PATH").
  Definition is (d : bytes) (cs : list bytes) : Prop := IsAbs d = true /\ comps d = cs.
  (** the first executable of a name in PATH, leaving out a directory, is that in the directory [cs] *)
  Definition first_but (skip : list bytes -> Prop) (name : bytes) (l : list bytes) (cs : list bytes) : Prop :=
    exists pre d post, l = pre ++ d :: post /\ is d cs /\ ~ skip cs /\ file (cs ++ [name]) <> None
      /\ forall e es, In e pre -> is e es -> skip es \/ file (es ++ [name]) = None.
  Definition nowhere_but (skip : list bytes -> Prop) (name : bytes) (l : list bytes) : Prop := forall e es, In e l -> is e es -> skip es \/ file (es ++ [name]) = None.
  (** The shadow is in the directory [sdir], which is in PATH, always spelled cleanly, and the user calls it by its
      name, as the first go in PATH, or by an absolute path. *)
  Record called (sdir : list bytes) (p : process) : Prop := {
    c_dir : plain sdir;
    c_in : In (spell sdir) (entries p);
    c_spelled : forall d, In d (entries p) -> is d sdir -> d = spell sdir;
    c_relative : forall d n, In d (entries p) -> IsAbs d = false -> relative d n = false;
    c_shadow : file (sdir ++ [#"go"]) = Some TheShadow;
    c_how : (argv0 p = #"go" /\ first_but (fun _ => False) #"go" (entries p) sdir) \/ exists a, argv0 p = a ++ #"/go" /\ IsAbs (argv0 p) = true /\ comps a = sdir }.
  Definition instrumented (p : process) : Prop := environ p #"XGO_SHADOW_BYPASS" <> Some #"true" /\ exists c rest, args p = c :: rest /\ In c [#"build"; #"run"; #"test"].
  (** the shadow, and n generations of its children, are the shadow *)
  Inductive generations : nat -> bytes -> process -> Prop :=
    | g_0 path p : file (comps path) = Some TheShadow -> generations 0 path p
    | g_S n path p path' p' i : file (comps path) = Some TheShadow -> main file relative p = Runs path' p' i -> generations n path' p' -> generations (S n) path p.
End Spec.

(** ** Paths *)
Lemma plain_slash cs : plain cs -> Forall (fun c => ~ In slash c) cs. Proof. apply Forall_impl. tauto. Qed.
Lemma clean_on cs : plain cs -> forall at_, clean_onto at_ cs = at_ ++ cs.
Proof.
  induction 1 as [|c cs (A & B & C & D) F IH]; intros at_; cbn [clean_onto]; [now rewrite app_nil_r|].
  apply eqs_false in A, B, C. rewrite A, B, C. cbn [orb]. now rewrite IH, <- app_assoc.
Qed.
Lemma comps_spell cs : plain cs -> comps (spell cs) = cs.
Proof.
  intros P. unfold comps, spell. cbn [split]. rewrite eqc_refl. cbn [clean_onto eqs orb]. destruct cs as [|c cs]; [reflexivity|].
  rewrite split_join; [|discriminate|now apply plain_slash]. now apply (clean_on (c :: cs) P []).
Qed.
Lemma split_noslash s : Forall (fun c => ~ In slash c) (split slash s).
Proof.
  induction s as [|x s IH]; cbn [split]; [repeat constructor; auto|]. destruct (eqc x slash) eqn:E; [constructor; auto|]. apply eqc_neq in E.
  destruct (split slash s) as [|h t]; [repeat constructor; cbn; intros [X|[]]; congruence|]. inversion IH; subst. constructor; auto. cbn. intros [X|X]; [congruence|tauto].
Qed.
Lemma clean_is_plain l : Forall (fun c => ~ In slash c) l -> forall at_, plain at_ -> plain (clean_onto at_ l).
Proof.
  induction 1 as [|c l N F IH]; intros at_ P; cbn [clean_onto]; [exact P|]. destruct (eqs c []) eqn:A; [now apply IH|]. destruct (eqs c #".") eqn:B; [now apply IH|]. cbn [orb]. destruct (eqs c #"..") eqn:C.
  - apply IH. unfold plain in *. clear -P. induction P as [|x [|y at_] X F IH]; cbn [removelast]; auto.
  - apply eqs_false in A, B, C. apply IH. apply Forall_app. split; [exact P|repeat constructor; auto].
Qed.
Lemma comps_plain p : plain (comps p). Proof. apply clean_is_plain; [apply split_noslash|constructor]. Qed.
Lemma plain_go cs n : plain cs -> In n [#"go"; #"xgo"] -> plain (cs ++ [n]).
Proof. intros P I. apply Forall_app. split; [exact P|]. repeat constructor; cbn in I; destruct I as [<-|[<-|[]]]; try discriminate; cbn; intros H; decompose [or] H; try discriminate; tauto. Qed.
Lemma spell_snoc cs n : spell (cs ++ [n]) = (match cs with [] => [] | _ => spell cs end) ++ slash :: n.
Proof.
  destruct cs as [|c cs]; [reflexivity|]. unfold spell. cbn [app]. f_equal. revert c. induction cs as [|d cs IH]; intros c; [reflexivity|]. cbn [app] in *. change (join [slash] (c :: d :: cs ++ [n])) with (c ++ [slash] ++ join [slash] (d :: cs ++ [n])). rewrite IH.
  change (join [slash] (c :: d :: cs)) with (c ++ [slash] ++ join [slash] (d :: cs)). now rewrite <- !app_assoc.
Qed.
Lemma go_noslash : ~ In slash #"go". Proof. cbn. intros H. decompose [or] H; try discriminate; tauto. Qed.
Lemma Dir_go a : Dir (a ++ #"/go") = spell (comps a).
Proof. unfold Dir. change #"/go" with (slash :: #"go"). rewrite cut_last_some; [reflexivity|apply go_noslash]. Qed.
Lemma Dir_spell cs : plain cs -> Dir (spell (cs ++ [#"go"])) = spell cs.
Proof. intros P. rewrite spell_snoc. change (slash :: #"go") with #"/go". rewrite Dir_go. destruct cs as [|c cs]; [reflexivity|]. now rewrite comps_spell. Qed.
Lemma abs_spell cs : IsAbs (spell cs) = true. Proof. reflexivity. Qed.

  Lemma split_nocolon s : Forall (fun c => ~ In colon c) (split colon s).
  Proof.
    induction s as [|x s IH]; cbn [split]; [repeat constructor; auto|]. destruct (eqc x colon) eqn:E; [constructor; auto|]. apply eqc_neq in E.
    destruct (split colon s) as [|h t]; [repeat constructor; cbn; intros [X|[]]; congruence|]. inversion IH; subst. constructor; auto. cbn. intros [X|X]; [congruence|tauto].
  Qed.
  Lemma splitlist_nocolon s : Forall (fun c => ~ In colon c) (SplitList s).
  Proof. destruct s; [constructor|apply split_nocolon]. Qed.
(** ** Looking up *)
Section Look.
  Variable file : list bytes -> option program.
  Variable relative : bytes -> bytes -> bool.
  Notation look := (look file relative).
  Lemma look_first name l cs : (forall d, In d l -> IsAbs d = false -> relative d name = false) -> first_but file (fun _ => False) name l cs -> look name l = Some (spell (cs ++ [name])).
  Proof.
    intros R (pre & d & post & -> & (A & <-) & _ & F & N). induction pre as [|e pre IH]; cbn [app M_Shadow.look].
    - rewrite A. destruct (file (comps d ++ [name])); congruence.
    - destruct (IsAbs e) eqn:E.
      + destruct (N e (comps e) (or_introl eq_refl) (conj E eq_refl)) as [[] | ->]. apply IH; [intros x I; apply R; now right|intros x xs I; apply N; now right].
      + rewrite R; [|now left|exact E]. apply IH; [intros x I; apply R; now right|intros x xs I; apply N; now right].
  Qed.
  Lemma look_none name l : nowhere_but file (fun _ => False) name l -> look name l = None.
  Proof.
    induction l as [|e l IH]; intros N; cbn [M_Shadow.look]; [reflexivity|]. destruct (IsAbs e) eqn:E.
    - destruct (N e (comps e) (or_introl eq_refl) (conj E eq_refl)) as [[] | ->]. apply IH. intros x xs I. apply N. now right.
    - destruct (relative e name); [reflexivity|]. apply IH. intros x xs I. apply N. now right.
  Qed.
  Lemma filter_shorter {X} (f : X -> bool) l x : In x l -> f x = false -> length (filter f l) < length l.
  Proof. induction l as [|y l IH]; intros I F; [destruct I|]. cbn. assert (length (filter f l) <= length l) by (clear; induction l as [|z l IH]; cbn; [lia|destruct (f z); cbn; lia]). destruct I as [->|I]; [rewrite F; lia|]. specialize (IH I F). destruct (f y); cbn; lia. Qed.
  (** what is looked up in the shortened PATH *)
  Lemma look_joined name l : Forall (fun c => ~ In colon c) l -> (forall d, In d l -> IsAbs d = false -> relative d name = false) -> look name (SplitList (JoinList l)) = look name l.
  Proof.
    intros F R. destruct l as [|d l]; [reflexivity|]. unfold SplitList, JoinList. destruct (join [colon] (d :: l)) eqn:J.
    - destruct l as [|e l]; [|cbn in J; apply app_eq_nil in J as [_ J]; discriminate]. cbn in J. subst d. cbn [M_Shadow.look IsAbs has_prefix]. now rewrite R; [|left|].
    - rewrite <- J, split_join; [reflexivity|discriminate|exact F].
  Qed.
  Lemma real_go sdir l : (forall d, In d l -> is d sdir -> d = spell sdir) -> plain sdir -> forall cs, first_but file (fun c => c = sdir) #"go" l cs -> first_but file (fun _ => False) #"go" (filter (fun d => negb (eqs d (spell sdir))) l) cs.
  Proof.
    intros SP P cs (pre & d & post & -> & D & NS & F & N). exists (filter (fun d => negb (eqs d (spell sdir))) pre), d, (filter (fun d => negb (eqs d (spell sdir))) post).
    split; [|split; [exact D|split; [auto|split; [exact F|]]]].
    - rewrite filter_app. cbn [filter]. assert (X : eqs d (spell sdir) = false) by (apply eqs_false; intros ->; apply NS; destruct D as [_ <-]; now apply comps_spell). now rewrite X.
    - intros e es I E. apply filter_In in I as [I X]. apply negb_true_iff, eqs_false in X. right. destruct (N _ _ I E) as [->|Y]; [|exact Y]. exfalso. apply X. apply SP; [apply in_app_iff; now left|exact E].
  Qed.
End Look.

Section C128.
  Variable file : list bytes -> option program.
  Variable relative : bytes -> bytes -> bool.
  Notation main := (main file relative).
  Lemma called_dir sdir p : called file relative sdir p -> exists l, GetRealGoPath file relative (argv0 p) (getenv (environ p) #"PATH") = look file relative #"go" l /\ l = filter (fun d => negb (eqs d (spell sdir))) (entries p).
  Proof.
    intros [P I SP R S H]. eexists. split; [|reflexivity]. unfold GetRealGoPath.
    assert (K : GetRealGoPathExcludeDir file relative (spell sdir) (getenv (environ p) #"PATH") = look file relative #"go" (filter (fun d => negb (eqs d (spell sdir))) (entries p))).
    { unfold GetRealGoPathExcludeDir, exclude. fold (entries p). pose proof (filter_shorter (fun d => negb (eqs d (spell sdir))) (entries p) (spell sdir) I ltac:(cbv beta; now rewrite eqs_refl)) as L.
      destruct (Nat.eqb_spec (length (filter (fun d => negb (eqs d (spell sdir))) (entries p))) (length (entries p))); [lia|]. unfold LookPath. apply look_joined.
      - pose proof (splitlist_nocolon (getenv (environ p) #"PATH")) as F. rewrite Forall_forall in *. intros x X. apply filter_In in X as [X _]. now apply F.
      - intros d X. apply filter_In in X as [X _]. now apply R. }
    destruct H as [[A F]|(a & A & B & <-)].
    - rewrite A, eqs_refl. unfold LookPath. fold (entries p). rewrite (look_first file relative #"go" (entries p) sdir); [|intros d; apply R|exact F]. now rewrite Dir_spell.
    - destruct (eqs (argv0 p) #"go") eqn:E; [apply eqs_eq in E; rewrite E in B; discriminate|]. rewrite B. cbn [negb]. rewrite A, Dir_go. exact K.
  Qed.
  (** ** C128 *)
  (** `go build`, `go run` and `go test` run xgo with the same arguments, and tell it which go to use: the first in PATH
      that is not in the shadow's directory; whatever the environment was before, xgo runs that one. *)
  Theorem C128_instrumented (sdir real xdir : list bytes) (p : process) : called file relative sdir p -> instrumented p -> first_but file (fun c => c = sdir) #"go" (entries p) real -> first_but file (fun _ => False) #"xgo" (entries p) xdir ->
    exists child i, main p = Runs (spell (xdir ++ [#"xgo"])) child i /\ args child = args p /\ getNakedGo (environ child) = spell (real ++ [#"go"]) /\ forall k, k <> #"XGO_REAL_GO_BINARY" -> environ child k = environ p k.
  Proof.
    intros C (B & c & rest & A & I) F X. destruct (called_dir _ _ C) as (l & G & ->). unfold M_Shadow.main. rewrite G.
    rewrite (look_first file relative #"go" _ real); [| |apply real_go; [exact (c_spelled _ _ _ _ C)|exact (c_dir _ _ _ _ C)|exact F]]; [|intros d Y; apply filter_In in Y as [Y _]; now apply (c_relative _ _ _ _ C)].
    assert (E1 : eqs (getenv (environ p) #"XGO_SHADOW_BYPASS") #"true" = false). { apply eqs_false. unfold getenv. destruct (environ p #"XGO_SHADOW_BYPASS"); [congruence|discriminate]. }
    assert (E2 : eqs (hd [] (args p)) #"build" || eqs (hd [] (args p)) #"run" || eqs (hd [] (args p)) #"test" = true). { rewrite A. cbn [hd]. cbn [In] in I. destruct I as [<-|[<-|[<-|[]]]]; reflexivity. }
    rewrite E1, E2. cbn [negb andb]. unfold LookPath. fold (entries p). rewrite (look_first file relative #"xgo" _ xdir); [|intros d; apply (c_relative _ _ _ _ C)|exact X].
    eexists _, _. split; [reflexivity|]. split; [reflexivity|]. split.
    - unfold getNakedGo, getenv, addenv. cbn [environ]. rewrite eqs_refl. reflexivity.
    - intros k K. cbn [environ]. unfold addenv. apply eqs_false in K. now rewrite K.
  Qed.
  (** Every other command is run by that go itself, with the same arguments and environment. *)
  Theorem C128_passed_on (sdir real : list bytes) (p : process) : called file relative sdir p -> ~ instrumented p -> first_but file (fun c => c = sdir) #"go" (entries p) real ->
    exists child i, main p = Runs (spell (real ++ [#"go"])) child i /\ args child = args p /\ environ child = environ p.
  Proof.
    intros C N F. destruct (called_dir _ _ C) as (l & G & ->). unfold M_Shadow.main. rewrite G.
    rewrite (look_first file relative #"go" _ real); [| |apply real_go; [exact (c_spelled _ _ _ _ C)|exact (c_dir _ _ _ _ C)|exact F]]; [|intros d Y; apply filter_In in Y as [Y _]; now apply (c_relative _ _ _ _ C)].
    destruct (negb _ && _) eqn:E; [|eexists _, _; split; [reflexivity|auto]].
    exfalso. apply N. apply andb_prop in E as [E1 E2]. apply negb_true_iff, eqs_false in E1. split; [intros H; apply E1; unfold getenv; now rewrite H|].
    destruct (args p) as [|c rest]; [discriminate|]. exists c, rest. split; [reflexivity|]. cbn [hd] in E2. apply orb_prop in E2 as [E2|E2]; [apply orb_prop in E2 as [E2|E2]|]; apply eqs_eq in E2; subst; cbn; auto.
  Qed.
  (** If no other go is in PATH nothing is run. *)
  Theorem C128_no_go (sdir : list bytes) (p : process) : called file relative sdir p -> nowhere_but file (fun c => c = sdir) #"go" (entries p) -> main p = Fails.
  Proof.
    intros C N. destruct (called_dir _ _ C) as (l & G & ->). unfold M_Shadow.main. rewrite G. rewrite look_none; [reflexivity|].
    intros e es I E. apply filter_In in I as [I X]. apply negb_true_iff, eqs_false in X. right. destruct (N _ _ I E) as [->|Y]; [|exact Y]. exfalso. apply X. now apply (c_spelled _ _ _ _ C).
  Qed.
  (** So the shadow never runs itself, if it is in one directory only. *)
  Theorem C128_once_partial (sdir : list bytes) (p : process) (path : bytes) (n : nat) : called file relative sdir p -> (forall d cs, In d (entries p) -> is d cs -> cs <> sdir -> file (cs ++ [#"go"]) <> Some TheShadow) ->
    (forall cs, file (cs ++ [#"xgo"]) <> Some TheShadow) -> generations file relative n path p -> n = 0.
  Proof.
    intros C U V H. destruct H as [|n path p path' p' i S M G]; [reflexivity|]. exfalso. assert (Q : file (comps path') = Some TheShadow) by (destruct G; assumption). clear G n.
    destruct (called_dir _ _ C) as (l & G & L). unfold M_Shadow.main in M. rewrite G in M. destruct (look file relative #"go" l) as [r|] eqn:K; [|discriminate].
    assert (W : forall name l x, look file relative name l = Some x -> exists d, In d l /\ IsAbs d = true /\ x = spell (comps d ++ [name])).
    { clear. intros name l x. induction l as [|e l IH]; cbn [look]; [discriminate|]. destruct (IsAbs e) eqn:E.
      - destruct (file (comps e ++ [name])); [intros [= <-]; exists e; repeat split; auto; now left|]. intros H. destruct (IH H) as (d & I & R). exists d. split; [now right|exact R].
      - destruct (relative e name); [discriminate|]. intros H. destruct (IH H) as (d & I & R). exists d. split; [now right|exact R]. }
    destruct (negb _ && _).
    - destruct (LookPath file relative #"xgo" _) as [x|] eqn:X; [|discriminate]. injection M as <- _ _. destruct (W _ _ _ X) as (d & _ & _ & ->). rewrite comps_spell in Q by (apply plain_go; [apply comps_plain|right; left; reflexivity]). exact (V _ Q).
    - injection M as <- _ _. destruct (W _ _ _ K) as (d & I & A & ->). rewrite comps_spell in Q by (apply plain_go; [apply comps_plain|left; reflexivity]). subst l. apply filter_In in I as [I J]. apply negb_true_iff, eqs_false in J.
      apply (U d (comps d) I (conj A eq_refl)); [|exact Q]. intros E. apply J. apply (c_spelled _ _ _ _ C); [exact I|split; auto].
  Qed.
  (** The status is that of the command that was run, and 0 only if that succeeded. *)
  Theorem C128_status (e : ending) : (forall n, e = Exited n -> status e = n) /\ (status e = 0 <-> e = Exited 0).
  Proof. destruct e as [n|]; cbn; split; try (intros m [= ->]; reflexivity); try discriminate; split; intros H; congruence. Qed.
  (** Standard input never reaches the command (`go run prog < input`). *)
  Theorem C128_stdin_refuted (p : process) (path : bytes) (child : process) (i : input) : main p = Runs path child i -> i = NoInput.
  Proof. unfold M_Shadow.main. destruct (GetRealGoPath _ _ _ _); [|discriminate]. destruct (negb _ && _); [|intros [= _ _ <-]; reflexivity]. destruct (LookPath _ _ _ _); [intros [= _ _ <-]; reflexivity|discriminate]. Qed.
End C128.
Definition user (path : bytes) (argv0 : bytes) (args : list bytes) : process := {| argv0 := argv0; args := args; environ := fun k => if eqs k #"PATH" then Some path else None |}.
Definition disk (l : list (bytes * program)) : list bytes -> option program := fun cs => option_map snd (find (fun e => eqs (fst e) (spell cs)) l).
(** A slash at the end of the entry, and the shadow does not find itself. *)
Theorem C128_slash_refuted : main (disk [(#"/s/go", TheShadow); (#"/usr/go", TheGo)]) (fun _ _ => false) (user #"/s/:/usr" #"go" [#"version"]) = Fails.
Proof. reflexivity. Qed.
(** The directory twice, spelled in two ways, and the shadow runs itself without end; so do two shadows. *)
Lemma forever file relative (p : process) path q path' : file (comps path) = Some TheShadow -> file (comps path') = Some TheShadow ->
  main file relative p = Runs path' q NoInput -> main file relative q = Runs path p NoInput -> forall n, generations file relative n path p /\ generations file relative n path' q.
Proof. intros A B C D n. induction n as [|n [IH1 IH2]]; split; econstructor; eauto. Qed.
Theorem C128_twice_refuted (n : nat) : generations (disk [(#"/s/go", TheShadow); (#"/usr/go", TheGo)]) (fun _ _ => false) n #"/s/go" (user #"/s:/s/:/usr" #"/s/go" [#"version"]).
Proof. refine (proj1 (forever _ _ _ _ (user #"/s:/s/:/usr" #"/s/go" [#"version"]) #"/s/go" _ _ _ _ n)); reflexivity. Qed.
Theorem C128_two_shadows_refuted (n : nat) : generations (disk [(#"/s/go", TheShadow); (#"/t/go", TheShadow); (#"/usr/go", TheGo)]) (fun _ _ => false) n #"/s/go" (user #"/s:/t:/usr" #"/s/go" [#"version"]).
Proof. refine (proj1 (forever _ _ _ _ (user #"/s:/t:/usr" #"/t/go" [#"version"]) #"/t/go" _ _ _ _ n)); reflexivity. Qed.
(** Non-vacuity *)
Definition a_disk := disk [(#"/h/.xgo/shadow/go", TheShadow); (#"/usr/local/go/bin/go", TheGo); (#"/h/go/bin/xgo", TheXgo)].
Definition a_user := user #"/h/.xgo/shadow:/bin:/usr/local/go/bin/:/h/go/bin" #"go" [#"test"; #"./..."].
Example C128_ex : called a_disk (fun _ _ => false) [#"h"; #".xgo"; #"shadow"] a_user /\ instrumented a_user
  /\ first_but a_disk (fun c => c = [#"h"; #".xgo"; #"shadow"]) #"go" (entries a_user) [#"usr"; #"local"; #"go"; #"bin"] /\ first_but a_disk (fun _ => False) #"xgo" (entries a_user) [#"h"; #"go"; #"bin"].
Proof.
  assert (EN : entries a_user = [#"/h/.xgo/shadow"; #"/bin"; #"/usr/local/go/bin/"; #"/h/go/bin"]) by (vm_compute; reflexivity).
  assert (C1 : comps #"/h/.xgo/shadow" = [#"h"; #".xgo"; #"shadow"]) by (vm_compute; reflexivity).
  assert (C2 : comps #"/bin" = [#"bin"]) by (vm_compute; reflexivity).
  assert (C3 : comps #"/usr/local/go/bin/" = [#"usr"; #"local"; #"go"; #"bin"]) by (vm_compute; reflexivity).
  assert (C4 : comps #"/h/go/bin" = [#"h"; #"go"; #"bin"]) by (vm_compute; reflexivity).
  assert (SP : spell [#"h"; #".xgo"; #"shadow"] = #"/h/.xgo/shadow") by (vm_compute; reflexivity).
  split; [constructor|split; [|split]]; rewrite ?EN, ?SP.
  - repeat constructor; try discriminate; cbn; intros H; decompose [or] H; try discriminate; tauto.
  - now left.
  - intros d I [_ D]. cbn [In] in I. destruct I as [<- | [<- | [<- | [<- | []]]]]; [reflexivity|rewrite C2 in D|rewrite C3 in D|rewrite C4 in D]; discriminate D.
  - reflexivity.
  - vm_compute. reflexivity.
  - left. split; [vm_compute; reflexivity|]. exists [], #"/h/.xgo/shadow", [#"/bin"; #"/usr/local/go/bin/"; #"/h/go/bin"]. split; [reflexivity|]. split; [split; [vm_compute; reflexivity|exact C1]|]. split; [intros []|]. split; [vm_compute; discriminate|intros ? ? []].
  - split; [vm_compute; discriminate|]. exists #"test", [#"./..."]. split; [vm_compute; reflexivity|]. right; right; left; reflexivity.
  - exists [#"/h/.xgo/shadow"; #"/bin"], #"/usr/local/go/bin/", [#"/h/go/bin"]. split; [reflexivity|]. split; [split; [vm_compute; reflexivity|exact C3]|]. split; [intros X; discriminate X|]. split; [vm_compute; discriminate|].
    intros e es I [_ <-]. cbn [In] in I. destruct I as [<-|[<-|[]]]; [left; exact C1|right; vm_compute; reflexivity].
  - exists [#"/h/.xgo/shadow"; #"/bin"; #"/usr/local/go/bin/"], #"/h/go/bin", []. split; [reflexivity|]. split; [split; [vm_compute; reflexivity|exact C4]|]. split; [intros []|]. split; [vm_compute; discriminate|].
    intros e es I [_ <-]. cbn [In] in I. destruct I as [<-|[<-|[<-|[]]]]; right; vm_compute; reflexivity.
Qed.
Print Assumptions C128_instrumented. Print Assumptions C128_passed_on. Print Assumptions C128_once_partial. Print Assumptions C128_two_shadows_refuted.
