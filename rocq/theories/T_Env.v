(** * Environments and child commands (C107-C109) *)
From Coq Require Import Ascii String List Arith Bool Lia.
From Verif Require Import M_Str P_Str M_Coverage M_Download T_Download M_Env.
Import ListNotations.
Open Scope nat_scope.
Open Scope list_scope.

(** ** Specification: the value of a variable in an environment is that of its last entry. *)
Definition sets (x k v : bytes) : Prop := x = k ++ #"=" ++ v.
Definition holds (e : env) (k v : bytes) : Prop := exists a x b, e = a ++ x :: b /\ sets x k v /\ forall y w, In y b -> ~ sets y k w.
Definition unset (e : env) (k : bytes) : Prop := forall y w, In y e -> ~ sets y k w.
Definition eqsign : ascii := "="%char.
(** a name of a variable *)
Definition name (k : bytes) : Prop := ~ In eqsign k.
(** an absolute path, as clean as it gets, that is not the root *)
Definition absolute (p : bytes) : Prop := rooted p = true /\ Clean p = p /\ p <> #"/".

Lemma has_sets x k : has_prefix x (k ++ #"=") = true <-> exists v, sets x k v.
Proof. rewrite has_prefix_iff. unfold sets. split; intros [v H]; exists v; rewrite H; now rewrite <- ?app_assoc. Qed.
Lemma getenv_none k e : getenv k e = None -> unset e k.
Proof.
  induction e as [|x r IH]; intros G y w; [intros []|]. cbn [getenv] in G. destruct (getenv k r) eqn:Gr; [discriminate|].
  destruct (has_prefix x (k ++ #"=")) eqn:P; [discriminate|]. intros [-> |I] S; [|now apply (IH eq_refl y w)].
  assert (X : has_prefix y (k ++ #"=") = true) by (apply has_sets; eauto). congruence.
Qed.
Lemma getenv_some k : forall e v, getenv k e = Some v -> holds e k v.
Proof.
  induction e as [|x r IH]; intros v G; cbn [getenv] in G; [discriminate|]. destruct (getenv k r) as [w|] eqn:Gr.
  - injection G as <-. destruct (IH w eq_refl) as (a & y & b & -> & S & N). exists (x :: a), y, b. auto.
  - destruct (has_prefix x (k ++ #"=")) eqn:P; [|discriminate]. injection G as <-. exists [], x, r. split; [reflexivity|]. split.
    + apply has_prefix_iff in P as [z ->]. rewrite skipn_app_exact by reflexivity. unfold sets. now rewrite <- app_assoc.
    + intros y w I. now apply (getenv_none _ _ Gr).
Qed.
Lemma holds_unset e k v : holds e k v -> ~ unset e k.
Proof. intros (a & x & b & -> & S & _) U. apply (U x v); auto. apply in_or_app. right. now left. Qed.
Lemma holds_unique e k v w : holds e k v -> holds e k w -> v = w.
Proof.
  intros (a & x & b & -> & S & N) (a' & x' & b' & E & S' & N').
  assert (G : forall a a' : env, a ++ x :: b = a' ++ x' :: b' -> v = w); [|eauto]. clear E. induction a0 as [|y a0 IH]; intros [|y' a0'] E; cbn [app] in E; injection E as E1 E2.
  - subst x'. unfold sets in *. rewrite S in S'. apply app_inv_head in S'. now apply app_inv_head in S'.
  - subst. exfalso. apply (N x' w); auto. apply in_or_app. right. now left.
  - subst. exfalso. apply (N' x v); auto. apply in_or_app. right. now left.
  - eauto.
Qed.
Lemma getenv_iff k e v : getenv k e = Some v <-> holds e k v.
Proof.
  split; [apply getenv_some|]. intros H. destruct (getenv k e) as [w|] eqn:G; [|exfalso; apply (holds_unset _ _ _ H), getenv_none, G].
  f_equal. eapply holds_unique; eauto using getenv_some.
Qed.
Lemma getenv_unset k e : getenv k e = None <-> unset e k.
Proof.
  split; [apply getenv_none|]. intros U. destruct (getenv k e) eqn:G; auto. apply getenv_some in G. exfalso. eapply holds_unset; eauto.
Qed.
Lemma getenv_app k a b : getenv k (a ++ b) = match getenv k b with Some v => Some v | None => getenv k a end.
Proof.
  induction a as [|x a IH]; cbn [app getenv]; [now destruct (getenv k b)|]. rewrite IH. now destruct (getenv k b).
Qed.
(** entries of different names *)
Lemma sets_name x k v k' v' : name k -> name k' -> sets x k v -> sets x k' v' -> k = k' /\ v = v'.
Proof.
  unfold sets, name. intros N N' -> E. revert k' N' E. induction k as [|c k IH]; intros [|c' k'] N' E.
  - split; auto. cbn in E. congruence.
  - exfalso. cbn in E. injection E as E _. apply N'. left. unfold eqsign. congruence.
  - exfalso. cbn in E. injection E as E _. apply N. left. unfold eqsign. congruence.
  - rewrite <- !app_comm_cons in E. injection E as E1 E2. subst c'. destruct (IH (fun H => N (or_intror H)) k' (fun H => N' (or_intror H)) E2) as [-> ->]. auto.
Qed.
Lemma entry k k' v : name k -> name k' -> has_prefix (k' ++ #"=" ++ v) (k ++ #"=") = eqs k' k.
Proof.
  intros N N'. destruct (eqs k' k) eqn:E.
  - apply eqs_eq in E. subst. apply has_sets. now exists v.
  - destruct (has_prefix (k' ++ #"=" ++ v) (k ++ #"=")) eqn:P; auto. apply has_sets in P as [w S].
    destruct (sets_name _ k' v k w N' N eq_refl S) as [-> _]. rewrite eqs_refl in E. discriminate.
Qed.
Lemma getenv_entry k k' v : name k -> name k' -> getenv k [k' ++ #"=" ++ v] = if eqs k' k then Some v else None.
Proof.
  intros N N'. cbn [getenv]. rewrite entry by auto. destruct (eqs k' k) eqn:E; auto. apply eqs_eq in E. subst.
  rewrite app_assoc. now rewrite skipn_app_exact.
Qed.
Ltac nm := unfold name, eqsign; cbn [In]; let H := fresh in intros H; repeat (destruct H as [H|H]; [discriminate H|]); exact H.
(** ** The loop of MakeGorootEnv *)
Definition kPATH : bytes := #"PATH".
Definition kGOROOT : bytes := #"GOROOT".
Lemma n_path : name kPATH. Proof. unfold kPATH. nm. Qed.
Lemma n_goroot : name kGOROOT. Proof. unfold kGOROOT. nm. Qed.
Lemma without_path e : forall p, snd (without e p) = match getenv kPATH e with Some v => #"PATH=" ++ v | None => p end.
Proof.
  induction e as [|x r IH]; intros p; [reflexivity|]. cbn [without getenv].
  change (kPATH ++ #"=") with #"PATH=". change #"GOROOT=" with (kGOROOT ++ #"=").
  destruct (has_prefix x (kGOROOT ++ #"=")) eqn:G.
  - rewrite IH. destruct (getenv kPATH r); auto. destruct (has_prefix x #"PATH=") eqn:P; auto.
    exfalso. change #"PATH=" with (kPATH ++ #"=") in P. apply has_sets in G as [v G], P as [w P].
    destruct (sets_name _ _ _ _ _ n_goroot n_path G P) as [E _]. discriminate.
  - destruct (has_prefix x #"PATH=") eqn:P.
    + rewrite IH. destruct (getenv kPATH r); auto. apply has_prefix_iff in P as [z ->]. rewrite skipn_app_exact by reflexivity. reflexivity.
    + specialize (IH p). destruct (without r p) as [n q]. cbn [snd] in *. rewrite IH. now destruct (getenv kPATH r).
Qed.
Lemma without_other k e : name k -> forall p, getenv k (fst (without e p)) = if eqs kGOROOT k || eqs kPATH k then None else getenv k e.
Proof.
  intros N. induction e as [|x r IH]; intros p; [cbn; now destruct (_ || _)|]. cbn [without getenv].
  change #"GOROOT=" with (kGOROOT ++ #"="). change #"PATH=" with (kPATH ++ #"=").
  destruct (has_prefix x (kGOROOT ++ #"=")) eqn:G; [|destruct (has_prefix x (kPATH ++ #"=")) eqn:P].
  - rewrite IH. apply has_sets in G as [v G]. unfold sets in G. subst x. rewrite entry by auto using n_goroot.
    destruct (eqs kGOROOT k); cbn [orb]; auto. destruct (eqs kPATH k); auto. now destruct (getenv k r).
  - rewrite IH. apply has_sets in P as [v P]. unfold sets in P. subst x. rewrite entry by auto using n_path.
    destruct (eqs kPATH k); [now rewrite orb_true_r|]. rewrite orb_false_r. destruct (eqs kGOROOT k); auto. now destruct (getenv k r).
  - specialize (IH p). destruct (without r p) as [n q]. cbn [fst getenv] in *. rewrite IH.
    destruct (eqs kGOROOT k) eqn:E1; cbn [orb]; [apply eqs_eq in E1; subst k; now rewrite G|].
    destruct (eqs kPATH k) eqn:E2; [apply eqs_eq in E2; subst k; now rewrite P|]. reflexivity.
Qed.
Lemma goroot_env k wd e goroot : name k -> getenv k (MakeGorootEnv wd e goroot) =
  if eqs kPATH k then Some (Join (Abs wd goroot) #"bin" ++ match getenv kPATH e with Some v => #":" ++ v | None => [] end)
  else if eqs kGOROOT k then Some (Abs wd goroot) else getenv k e.
Proof.
  intros N. unfold MakeGorootEnv. pose proof (without_path e []) as W. pose proof (without_other k e N []) as O.
  destruct (without e []) as [n q]. cbn [fst snd] in *. rewrite getenv_app.
  match goal with |- context [#"PATH=" ++ ?p] => set (pv := p) end.
  assert (Pv : pv = Join (Abs wd goroot) #"bin" ++ match getenv kPATH e with Some v => #":" ++ v | None => [] end).
  { unfold pv. rewrite W. destruct (getenv kPATH e) as [v|]; [|now rewrite app_nil_r].
    change (#"PATH=" ++ v) with ("P"%char :: #"ATH=" ++ v) at 1. cbv iota. unfold trim_prefix. rewrite has_prefix_app. now rewrite skipn_app_exact. }
  clearbody pv. subst pv.
  change (#"GOROOT=" ++ Abs wd goroot) with (kGOROOT ++ #"=" ++ Abs wd goroot).
  match goal with |- context [#"PATH=" ++ ?p] => set (pv := p); change (#"PATH=" ++ pv) with (kPATH ++ #"=" ++ pv) end.
  change [kGOROOT ++ #"=" ++ Abs wd goroot; kPATH ++ #"=" ++ pv] with ([kGOROOT ++ #"=" ++ Abs wd goroot] ++ [kPATH ++ #"=" ++ pv]).
  rewrite getenv_app, !getenv_entry by auto using n_path, n_goroot. rewrite O.
  destruct (eqs kPATH k); [reflexivity|]. destruct (eqs kGOROOT k); reflexivity.
Qed.
Lemma path_bin p : absolute p -> Join p #"bin" = p ++ #"/bin".
Proof.
  intros (R & C & N). assert (C' : clean (p ++ slash :: #"bin") = {| p_root := true; p_comps := p_comps (clean p) ++ [#"bin"] |}).
  { unfold clean at 1. destruct p as [|x p]; [discriminate|]. rewrite rooted_app, R. f_equal. unfold clean_comps. rewrite split_app, fold_left_app.
    change (split slash #"bin") with [#"bin"]. cbn [fold_left]. rewrite clean_step_plain by (split; [|split]; discriminate). cbn [rev]. cbn [clean p_comps]. rewrite R. reflexivity. }
  destruct p as [|x p]; [discriminate|]. cbn [Join]. unfold Clean at 1. rewrite C'. unfold text at 1. cbn [p_root p_comps].
  assert (T : x :: p = slash :: join [slash] (p_comps (clean (x :: p)))) by (rewrite <- C at 1; unfold Clean, text; cbn [clean p_root]; now rewrite R).
  rewrite T at 2. destruct (p_comps (clean (x :: p))) as [|c l]; [exfalso; apply N; exact T|].
  clear. cbn [app]. f_equal. change #"/bin" with (slash :: #"bin"). revert c. induction l as [|d l IH]; intros c; [reflexivity|].
  cbn [app] in *. change (join [slash] (c :: d :: l ++ [#"bin"])) with (c ++ [slash] ++ join [slash] (d :: l ++ [#"bin"])).
  change (join [slash] (c :: d :: l)) with (c ++ [slash] ++ join [slash] (d :: l)). cbn [app] in *. rewrite IH. now rewrite <- app_assoc.
Qed.
Lemma abs_id wd p : absolute p -> Abs wd p = p.
Proof. intros (R & C & _). unfold Abs. now rewrite R. Qed.
(** ** C107 *)
(** The new environment has this GOROOT, its bin before the PATH there was, and every other
    variable as it was. *)
Theorem C107_goroot (wd : bytes) (e : env) (goroot : bytes) : absolute goroot ->
  holds (MakeGorootEnv wd e goroot) #"GOROOT" goroot
  /\ (forall p, holds e #"PATH" p -> holds (MakeGorootEnv wd e goroot) #"PATH" (goroot ++ #"/bin:" ++ p))
  /\ (unset e #"PATH" -> holds (MakeGorootEnv wd e goroot) #"PATH" (goroot ++ #"/bin"))
  /\ forall k, name k -> k <> #"GOROOT" -> k <> #"PATH" ->
     (forall v, holds (MakeGorootEnv wd e goroot) k v <-> holds e k v) /\ (unset (MakeGorootEnv wd e goroot) k <-> unset e k).
Proof.
  intros A. pose proof (abs_id wd _ A) as B. pose proof (path_bin _ A) as P. split; [|split; [|split]].
  - apply getenv_iff. change #"GOROOT" with kGOROOT. rewrite goroot_env by apply n_goroot. rewrite B. reflexivity.
  - intros p H. apply getenv_iff in H. apply getenv_iff. change #"PATH" with kPATH in *. rewrite goroot_env by apply n_path. rewrite B, P, H. cbv iota. rewrite eqs_refl, <- app_assoc. reflexivity.
  - intros H. apply getenv_unset in H. apply getenv_iff. change #"PATH" with kPATH in *. rewrite goroot_env by apply n_path. rewrite B, P, H. rewrite eqs_refl, app_nil_r. reflexivity.
  - intros k N N1 N2. assert (E : getenv k (MakeGorootEnv wd e goroot) = getenv k e).
    { rewrite goroot_env by auto. destruct (eqs kPATH k) eqn:X; [apply eqs_eq in X; exfalso; apply N2; symmetry; exact X|]. destruct (eqs kGOROOT k) eqn:Y; [apply eqs_eq in Y; exfalso; apply N1; symmetry; exact Y|]. reflexivity. }
    split; [intros v; rewrite <- !getenv_iff, E; tauto|]. rewrite <- !getenv_unset, E. tauto.
Qed.
Lemma native_env k wd e goroot : name k -> getenv k (EnvForNative wd e goroot) =
  if eqs #"GOEXPERIMENT" k || eqs #"GOARCH" k || eqs #"GOOS" k then Some [] else getenv k (MakeGorootEnv wd e goroot).
Proof.
  intros N. unfold EnvForNative, AppendNativeBuildEnv. rewrite getenv_app.
  change [#"GOEXPERIMENT="] with [#"GOEXPERIMENT" ++ #"=" ++ []]. rewrite getenv_entry by (auto; nm).
  destruct (eqs #"GOEXPERIMENT" k); cbn [orb]; [reflexivity|]. rewrite getenv_app.
  change [#"GOOS="; #"GOARCH="] with ([#"GOOS" ++ #"=" ++ []] ++ [#"GOARCH" ++ #"=" ++ []]). rewrite getenv_app, !getenv_entry by (auto; nm).
  destruct (eqs #"GOARCH" k); cbn [orb]; [reflexivity|]. destruct (eqs #"GOOS" k); reflexivity.
Qed.
(** The tools of the toolchain are built for this machine, by the toolchain that is being
    built, with xgo switched off in it; everything else in their environment is the user's. *)
Theorem C107_native (wd : bytes) (e : env) (goroot dir : bytes) (flags : list bytes) (outDir outName arg : bytes) : absolute goroot ->
  let c := BuildNativeBinary wd e goroot dir flags outDir outName arg in
  c_bin c = goroot ++ #"/bin/go" /\ c_dir c = dir /\ c_args c = #"build" :: #"-o" :: Join outDir outName :: flags ++ [arg]
  /\ holds (c_env c) #"GOROOT" goroot
  /\ (forall p, holds e #"PATH" p -> holds (c_env c) #"PATH" (goroot ++ #"/bin:" ++ p))
  /\ holds (c_env c) #"GOOS" [] /\ holds (c_env c) #"GOARCH" [] /\ holds (c_env c) #"GOEXPERIMENT" [] /\ holds (c_env c) #"GO_BYPASS_XGO" #"true"
  /\ forall k, name k -> ~ In k [#"GOROOT"; #"PATH"; #"GOOS"; #"GOARCH"; #"GOEXPERIMENT"; #"GO_BYPASS_XGO"] ->
     (forall v, holds (c_env c) k v <-> holds e k v) /\ (unset (c_env c) k <-> unset e k).
Proof.
  intros A c. destruct (C107_goroot wd e goroot A) as (G1 & G2 & _ & G3).
  assert (E : forall k, name k -> getenv k (c_env c) = if eqs #"GO_BYPASS_XGO" k then Some #"true" else getenv k (EnvForNative wd e goroot)).
  { intros k N. unfold c, BuildNativeBinary. cbn [c_env]. unfold child_env, given, inherits. cbn [b_env b_noInherit negb].
    assert (X : forall l : env, match l ++ [#"GO_BYPASS_XGO=true"] with [] => [] | g => [] ++ g end = l ++ [#"GO_BYPASS_XGO=true"]) by (intros [|]; reflexivity).
    rewrite X, getenv_app. change [#"GO_BYPASS_XGO=true"] with [#"GO_BYPASS_XGO" ++ #"=" ++ #"true"]. rewrite getenv_entry by (auto; nm). now destruct (eqs #"GO_BYPASS_XGO" k). }
  assert (J : forall p, absolute p -> Join (Join p #"bin") #"go" = p ++ #"/bin/go").
  { clear. intros p A. rewrite path_bin by auto. destruct A as (R & C & N).
    assert (C' : clean ((p ++ #"/bin") ++ slash :: #"go") = {| p_root := true; p_comps := (p_comps (clean p) ++ [#"bin"]) ++ [#"go"] |}).
    { unfold clean at 1. replace ((p ++ #"/bin") ++ slash :: #"go") with (p ++ slash :: #"bin/go") by (now rewrite <- app_assoc). destruct p as [|x p]; [discriminate|]. rewrite rooted_app, R. f_equal. unfold clean_comps. rewrite split_app, fold_left_app.
      change (split slash #"bin/go") with [#"bin"; #"go"]. cbn [fold_left]. rewrite !clean_step_plain by (split; [|split]; discriminate). cbn [rev]. cbn [clean p_comps]. rewrite R. reflexivity. }
    destruct p as [|x p]; [discriminate|]. change (Join ((x :: p) ++ #"/bin") #"go") with (Clean (((x :: p) ++ #"/bin") ++ slash :: #"go")). unfold Clean at 1. rewrite C'. unfold text at 1. cbn [p_root p_comps].
    assert (T : x :: p = slash :: join [slash] (p_comps (clean (x :: p)))) by (rewrite <- C at 1; unfold Clean, text; cbn [clean p_root]; now rewrite R).
    rewrite T at 2. destruct (p_comps (clean (x :: p))) as [|c l]; [exfalso; apply N; exact T|].
    clear. cbn [app]. f_equal. revert c. induction l as [|d l IH]; intros c; [reflexivity|].
    cbn [app] in *. change (join [slash] (c :: d :: (l ++ [#"bin"]) ++ [#"go"])) with (c ++ [slash] ++ join [slash] (d :: (l ++ [#"bin"]) ++ [#"go"])).
    change (join [slash] (c :: d :: l)) with (c ++ [slash] ++ join [slash] (d :: l)). cbn [app] in *. rewrite IH. now rewrite <- app_assoc. }
  split; [unfold c; cbn [BuildNativeBinary c_bin]; now apply J|]. split; [reflexivity|]. split; [reflexivity|].
  split; [|split; [|split; [|split; [|split; [|split]]]]].
  - apply getenv_iff. rewrite E by nm. cbv iota. rewrite native_env by nm. apply getenv_iff in G1. exact G1.
  - intros p H. apply G2, getenv_iff in H. apply getenv_iff. rewrite E by nm. rewrite native_env by nm. exact H.
  - apply getenv_iff. rewrite E by nm. rewrite native_env by nm. reflexivity.
  - apply getenv_iff. rewrite E by nm. rewrite native_env by nm. reflexivity.
  - apply getenv_iff. rewrite E by nm. rewrite native_env by nm. reflexivity.
  - apply getenv_iff. rewrite E by nm. reflexivity.
  - intros k N H. assert (X : getenv k (c_env c) = getenv k (MakeGorootEnv wd e goroot)).
    { rewrite E by auto. destruct (eqs #"GO_BYPASS_XGO" k) eqn:K; [apply eqs_eq in K; exfalso; apply H; subst; cbn; tauto|]. rewrite native_env by auto.
      destruct (eqs #"GOEXPERIMENT" k || eqs #"GOARCH" k || eqs #"GOOS" k) eqn:O; auto.
      apply orb_true_iff in O as [O|O]; [apply orb_true_iff in O as [O|O]|]; apply eqs_eq in O; exfalso; apply H; subst; cbn; tauto. }
    destruct (G3 k N) as [U V]; [intros ->; apply H; cbn; tauto|intros ->; apply H; cbn; tauto|].
    split; [intros v; rewrite <- U, <- !getenv_iff, X; tauto|]. rewrite <- V, <- !getenv_unset, X. tauto.
Qed.
Example C107_nontrivial : absolute #"/usr/local/go" /\ MakeGorootEnv #"/w" [#"PATH=/a"; #"GOROOT=/x"; #"A=1"; #"PATH=/bin"] #"/usr/local/go" = [#"A=1"; #"GOROOT=/usr/local/go"; #"PATH=/usr/local/go/bin:/bin"]
  /\ MakeGorootEnv #"/w" [] #"sdk/../go" = [#"GOROOT=/w/go"; #"PATH=/w/go/bin"].
Proof. split; [split; [|split]; try reflexivity; discriminate|]. split; reflexivity. Qed.
(** ** C108: child commands *)
(** What a command is given overrides what it inherits; without inheritance it sees nothing
    else. *)
Theorem C108_environment (parent : env) (c : option builder) (k v : bytes) :
  let own := match c with Some b => b_env b | None => [] end in
  let inherits := match c with Some b => b_noInherit b = false | None => True end in
  (holds own k v -> holds (child_env parent c) k v)
  /\ (unset own k -> inherits -> (holds (child_env parent c) k v <-> holds parent k v))
  /\ (unset own k -> ~ inherits -> unset (child_env parent c) k).
Proof.
  intros own inh.
  assert (X : getenv k (child_env parent c) = match getenv k own with Some v => Some v | None => if match c with Some b => negb (b_noInherit b) | None => true end then getenv k parent else None end).
  { unfold child_env. change (given c) with own. change (M_Env.inherits c) with (match c with Some b => negb (b_noInherit b) | None => true end).
    destruct own as [|x o]; [cbn [getenv]; destruct c as [[? [] ?]|]; reflexivity|]. rewrite getenv_app. destruct (getenv k (x :: o)); auto. destruct c as [[? [] ?]|]; reflexivity. }
  split; [|split].
  - intros H. apply getenv_iff in H. apply getenv_iff. rewrite X, H. reflexivity.
  - intros U I. apply getenv_unset in U. rewrite <- !getenv_iff. rewrite X, U. unfold inh in I. destruct c as [b|]; [rewrite I; cbn [negb]|]; tauto.
  - intros U I. apply getenv_unset in U. apply getenv_unset. rewrite X, U. unfold inh in I. destruct c as [b|]; [|contradiction]. destruct (b_noInherit b); [reflexivity|]. exfalso. now apply I.
Qed.
(** Output gives what the command wrote without the line feed at its end. *)
Theorem C108_output (c : option builder) (t : bytes) (failed : bool) :
  (fst (Output c (t ++ lf) failed) = t)
  /\ (has_suffix t lf = false -> has_suffix t cr = false -> fst (Output c t failed) = t).
Proof.
  assert (F : forall s, fst (Output c s failed) = trim_suffix (trim_suffix s cr) lf) by (intros s; unfold Output; destruct failed; auto; destruct c as [[? ? []]|]; reflexivity).
  split.
  - rewrite F. assert (A : trim_suffix (t ++ lf) cr = t ++ lf) by (unfold trim_suffix, lf, cr; now rewrite has_suffix_last).
    rewrite A. unfold trim_suffix. assert (B : has_suffix (t ++ lf) lf = true) by (apply has_suffix_iff; now exists t). rewrite B.
    rewrite app_length. cbn [length lf]. replace (length t + 1 - 1) with (length t) by lia. now rewrite firstn_app_exact.
  - intros A B. rewrite F. unfold trim_suffix at 2. rewrite B. unfold trim_suffix. now rewrite A.
Qed.
(** A failure is reported by Run always, by Output of a builder that was not told to ignore
    it. Missing: Output without a builder (C108_output_refuted). *)
Theorem C108_failure_partial (c : option builder) (b : builder) (out : bytes) (failed : bool) :
  Run c failed = failed /\ (b_ignoreError b = false -> snd (Output (Some b) out failed) = failed) /\ (b_ignoreError b = true -> snd (Output (Some b) out failed) = false).
Proof. split; [reflexivity|]. unfold Output. split; intros H; rewrite H; destruct failed; reflexivity. Qed.
Theorem C108_output_refuted : (forall out failed, snd (Output None out failed) = false) /\ ~ (forall out failed, snd (Output None out failed) = failed).
Proof. split; [intros; unfold Output; now destruct failed|]. intros H. specialize (H [] true). discriminate. Qed.
(** so that without any xgo on the PATH, rules are passed to it all the same *)
Theorem C108_mock_rule_refuted (parse_int : bytes -> option nat) : getXgoSupportsMockRule parse_int [] true = true.
Proof. reflexivity. Qed.
(** and the end of line of Windows stays half. *)
Theorem C108_crlf_refuted (c : option builder) (t : bytes) : fst (Output c (t ++ cr ++ lf) false) = t ++ cr.
Proof. rewrite app_assoc. apply C108_output. Qed.
Example C108_nontrivial : let b := {| b_env := [#"A=2"]; b_noInherit := true; b_ignoreError := false |} in
  child_env [#"A=1"; #"B=1"] (Some b) = [#"A=2"] /\ child_env [#"A=1"; #"B=1"] (Some {| b_env := [#"A=2"]; b_noInherit := false; b_ignoreError := false |}) = [#"A=1"; #"B=1"; #"A=2"]
  /\ Output (Some b) (#"go1.22" ++ lf) true = (#"go1.22", true).
Proof. repeat split; reflexivity. Qed.
(** ** C109: linking the tools of the toolchain *)
(** the tools run on this machine: one that is an Apple Silicon Mac, with a Go before 1.23,
    needs the external linker. *)
Definition machine_needs (h : host) (v : goversion) : Prop := h_os h = #"darwin" /\ h_arch h = #"arm64" /\ g_major v = 1 /\ g_minor v < 23.
Definition external : bytes := #"-ldflags=-linkmode=external".
Definition target_os (e : env) (os : bytes) : Prop := holds e #"GOOS" os /\ os <> [].
Lemma need_iff h e v : NeedExternalLinker h e (Some v) = true <-> machine_needs h v /\ GetTargetGOOS h e = #"darwin".
Proof.
  unfold NeedExternalLinker, machine_needs. destruct (eqs (h_os h) #"darwin") eqn:A; cbn [negb orb].
  2:{ apply eqs_false in A. split; [discriminate|tauto]. }
  destruct (eqs (h_arch h) #"arm64") eqn:B; cbn [negb].
  2:{ apply eqs_false in B. split; [discriminate|tauto]. }
  apply eqs_eq in A, B. destruct (eqs (GetTargetGOOS h e) #"darwin") eqn:C; cbn [negb].
  2:{ apply eqs_false in C. split; [discriminate|tauto]. }
  apply eqs_eq in C. rewrite andb_true_iff, Nat.eqb_eq, Nat.ltb_lt. tauto.
Qed.
(** They are linked so when no other system is asked for; never when it is not needed.
    Missing: that they are when the user compiles for another system (C109_cross_refuted),
    although the tools are built for this machine all the same (C107_native). *)
Theorem C109_linker_partial (wd : bytes) (h : host) (e : env) (goroot tool : bytes) (v : goversion) :
  let go := RebuildGoBinary wd h e goroot (Some v) in let compile := RebuildGoToolCompile wd h e goroot tool (Some v) in
  (~ machine_needs h v -> exists out, c_args go = [#"build"; #"-o"; out; #"-a"; #"./cmd/go"])
  /\ ((forall os, target_os e os -> os = #"darwin") -> machine_needs h v -> In external (c_args go) /\ In external (c_args compile))
  /\ In #"-a" (c_args go) /\ In #"-a" (c_args compile) /\ (exists l, c_args go = l ++ [#"./cmd/go"]) /\ exists l, c_args compile = l ++ [#"./cmd/compile"].
Proof.
  unfold RebuildGoBinary, RebuildGoToolCompile, BuildNativeBinary. cbn [c_args]. unfold ExternalLinkerFlags. split; [|split; [|split; [|split; [|split]]]].
  - intros M. destruct (NeedExternalLinker h e (Some v)) eqn:E; [apply need_iff in E; tauto|]. eexists. reflexivity.
  - intros T M. assert (E : NeedExternalLinker h e (Some v) = true).
    { apply need_iff. split; auto. unfold GetTargetGOOS, Getenv. destruct M as (O & _). destruct (getenv #"GOOS" e) as [os|] eqn:G; auto. destruct os as [|c os]; auto. apply T. split; [now apply getenv_iff|discriminate]. }
    rewrite E. split; apply in_or_app; right; right; left; reflexivity.
  - destruct (NeedExternalLinker h e (Some v)); cbn [app]; do 3 right; now left.
  - destruct (NeedExternalLinker h e (Some v)); cbn [app]; do 3 right; now left.
  - destruct (NeedExternalLinker h e (Some v)); cbn [app]; [eexists [_; _; _; _; _]|eexists [_; _; _; _]]; reflexivity.
  - destruct (NeedExternalLinker h e (Some v)); cbn [app]; [eexists [_; _; _; _; _]|eexists [_; _; _; _]]; reflexivity.
Qed.
Theorem C109_cross_refuted : exists wd h e goroot v, machine_needs h v /\ target_os e #"linux"
  /\ holds (c_env (RebuildGoBinary wd h e goroot (Some v))) #"GOOS" [] /\ ~ In external (c_args (RebuildGoBinary wd h e goroot (Some v))).
Proof.
  exists #"/w", {| h_os := #"darwin"; h_arch := #"arm64" |}, [#"GOOS=linux"], #"/sdk/go", {| g_major := 1; g_minor := 19 |}. split; [|split; [|split]].
  - repeat split; cbn; lia.
  - split; [apply getenv_iff; reflexivity|discriminate].
  - apply getenv_iff. reflexivity.
  - intros I. vm_compute in I. repeat (destruct I as [I|I]; [discriminate I|]). exact I.
Qed.
