(** * C58: what the arguments of xgo mean *)
From Coq Require Import Ascii String List Arith Bool Lia.
From Verif Require Import M_Str M_Options.
Import ListNotations.
Open Scope nat_scope.

(** ** Specification *)
(** A flag stands alone, needs a value (-f v or -f=v), or may have one (-f or -f=v, with the
    meaning of that value; a bad one is refused or makes xgo panic). *)
Inductive verdict := Store (v : bytes) | Refuse | Crash.
Inductive kind := Alone | NeedsValue | MayHave (meaning : bytes -> verdict).
(** Leaving the value out means yes. *)
Definition affirmative (v : bytes) : bool := eqs v [] || eqs v #"true".
Definition known (c : cmd) : list (bytes * (field * kind)) :=
  let yes_no v := if affirmative v then Store #"true" else Store #"false" in
  let set_it (_ : bytes) := Store #"true" in
  [ (#"-a", (FA, Alone)); (#"--a", (FA, Alone)); (#"-x", (FX, Alone)); (#"--x", (FX, Alone)); (#"-c", (FC, Alone)); (#"--c", (FC, Alone));
    (#"-v", (FV, Alone)); (#"--v", (FV, Alone)); (#"--log-compile", (FLogCompile, Alone)); (#"--sync-xgo-only", (FSyncXgoOnly, Alone));
    (#"--setup-dev", (FSetupDev, Alone)); (#"--sync-with-link", (FSyncWithLink, Alone)); (#"--no-build-output", (FNoBuildOutput, Alone));
    (#"--no-instrument", (FNoInstrument, Alone)); (#"--reset-instrument", (FResetInstrument, Alone)); (#"--no-setup", (FNoSetup, Alone));
    (#"--no-line-directive", (FNoLineDirective, Alone));
    (#"--use-file-patches", (FUseFilePatches, MayHave (fun v => if affirmative v then Store #"true" else if eqs v #"false" then Store #"false" else Refuse)));
    (#"--debug", (FDebug, MayHave Store)); (#"--strace-dir", (FStraceDir, NeedsValue)); (#"--stack-trace-dir", (FStraceDir, NeedsValue));
    (#"--strace", (FStrace, MayHave (fun v => if affirmative v || eqs v #"on" then Store #"on" else if eqs v #"off" || eqs v #"false" then Store #"off" else Crash)));
    (#"--stack-trace", (FStrace, MayHave (fun v => if affirmative v || eqs v #"on" then Store #"on" else if eqs v #"off" || eqs v #"false" then Store #"off" else Crash)));
    (#"--strace-snapshot-main-module-default", (FStraceSnapshot, MayHave Store));
    (#"--trap-stdlib", (FTrapStdlib, MayHave yes_no)); (#"--trap-all", (FTrapAll, MayHave yes_no));
    (#"--project-dir", (FProjectDir, NeedsValue)); (#"-o", (FOutput, NeedsValue)); (#"--o", (FOutput, NeedsValue));
    (#"--debug-target", (FDebugTarget, NeedsValue)); (#"--vscode", (FVscode, NeedsValue)); (#"--xgo-src", (FXgoSrc, NeedsValue));
    (#"--with-goroot", (FWithGoroot, NeedsValue)); (#"--options-from-file", (FOptionsFile, NeedsValue)); (#"--mock-rule", (FMockRule, NeedsValue));
    (#"--mock-rule-include-as-main-module", (FIncludeAsMain, NeedsValue)); (#"--dump-ir", (FDumpIR, NeedsValue)); (#"--dump-ast", (FDumpAST, NeedsValue));
    (#"-run", (FRun, NeedsValue)); (#"--run", (FRun, NeedsValue)); (#"-mod", (FMod, NeedsValue)); (#"--mod", (FMod, NeedsValue));
    (#"-gcflags", (FGcflags, NeedsValue)); (#"--gcflags", (FGcflags, NeedsValue)); (#"-overlay", (FOverlay, NeedsValue)); (#"--overlay", (FOverlay, NeedsValue));
    (#"-modfile", (FModfile, NeedsValue)); (#"--modfile", (FModfile, NeedsValue)); (#"-tags", (FTags, NeedsValue)); (#"--tags", (FTags, NeedsValue));
    (#"--log-debug", (FLogDebug, MayHave Store)); (#"--build-flag", (FBuildFlag, NeedsValue)); (#"--prog-flag", (FProgFlag, NeedsValue));
    (#"--trap", (FTrap, NeedsValue)); (#"--go", (FGo, MayHave set_it)); (#"--xgo-race-safe", (FRaceSafe, MayHave yes_no)) ] ++
  match c with
  | Setup => [ (#"--delete", (FDelete, MayHave set_it)); (#"--patch-goroot-in-place", (FInPlace, MayHave set_it));
               (#"--skip-rebuild-compiler-and-go", (FSkipRebuild, MayHave set_it)) ]
  | Test => [ (#"--unified", (FUnified, MayHave (fun v => if affirmative v then Store #"true" else if eqs v #"false" then Store #"false" else Crash))) ]
  | _ => []
  end.
Definition dashed (w : bytes) : Prop := exists r, w = "-"%char :: r.
(** A word that is one of xgo's own flags. *)
Definition own (c : cmd) (w : bytes) : Prop :=
  exists name f k, In (name, (f, k)) (known c) /\ (w = name \/ (k <> Alone /\ exists v, w = name ++ #"=" ++ v)).
Definition special (c : cmd) (w : bytes) : Prop := w = #"-" \/ w = #"--" \/ (c = Test /\ (w = #"-args" \/ w = #"--args")).
Definition takes_program (c : cmd) : Prop := c = Run \/ c = Exec.

Definition got (A : list (field * bytes)) (F T : list bytes) : result := Parsed {| p_set := A; p_remain := F; p_test := T |}.
(** The meaning of the arguments, given the options set so far and the words to forward. *)
Inductive means (c : cmd) : list bytes -> list (field * bytes) -> list bytes -> result -> Prop :=
| s_end A F : means c [] A F (got A F [])
| s_word w args A F r : ~ takes_program c -> ~ dashed w -> means c args A (F ++ [w]) r -> means c (w :: args) A F r
| s_program w args A F : takes_program c -> ~ dashed w -> means c (w :: args) A F (got A (F ++ w :: args) [])
| s_foreign w args A F r :
    dashed w -> ~ own c w -> ~ special c w -> (takes_program c -> In "="%char w) ->
    means c args A (F ++ [w]) r -> means c (w :: args) A F r
| s_rest args A F : means c (#"--" :: args) A F (got A (F ++ args) [])
| s_args w args A F : c = Test -> w = #"-args" \/ w = #"--args" -> means c (w :: args) A F (got A F args)
| s_alone name f args A F r : In (name, (f, Alone)) (known c) -> means c args (A ++ [(f, #"true")]) F r -> means c (name :: args) A F r
| s_value_next name f v args A F r : In (name, (f, NeedsValue)) (known c) -> means c args (A ++ [(f, v)]) F r -> means c (name :: v :: args) A F r
| s_value_eq name f v args A F r :
    In (name, (f, NeedsValue)) (known c) -> means c args (A ++ [(f, v)]) F r -> means c ((name ++ #"=" ++ v) :: args) A F r
| s_may name f m args A F r :
    In (name, (f, MayHave m)) (known c) -> (forall v, m [] = Store v -> means c args (A ++ [(f, v)]) F r) ->
    (m [] = Refuse -> r = Failed) -> (m [] = Crash -> r = Panicked) -> means c (name :: args) A F r
| s_may_eq name f m v args A F r :
    In (name, (f, MayHave m)) (known c) -> (forall x, m v = Store x -> means c args (A ++ [(f, x)]) F r) ->
    (m v = Refuse -> r = Failed) -> (m v = Crash -> r = Panicked) -> means c ((name ++ #"=" ++ v) :: args) A F r
| s_dash args A F : means c (#"-" :: args) A F Failed
| s_missing name f A F : In (name, (f, NeedsValue)) (known c) -> means c [name] A F Failed.
(** xgo test starts with standard library functions trapped. *)
Definition defaults (c : cmd) : list (field * bytes) := match c with Test => [(FTrapStdlib, #"true")] | _ => [] end.

(** ** Proofs *)
Definition key (w : bytes) : bytes := match cut_first "="%char w with Some (a, _) => a | None => w end.
Definition val (w : bytes) : option bytes := match cut_first "="%char w with Some (_, b) => Some b | None => None end.
Lemma key_spec w : (val w = None /\ key w = w /\ ~ In "="%char w) \/ (exists v, val w = Some v /\ w = key w ++ #"=" ++ v /\ ~ In "="%char (key w)).
Proof.
  unfold key, val. destruct (cut_first "="%char w) as [[a b]|] eqn:E.
  - right. apply cut_first_sound in E as [-> N]. eauto.
  - left. repeat split; auto. intros I. apply in_split in I as (a & b & ->).
    induction a as [|x a IH]; cbn [app cut_first] in E; [now rewrite eqc_refl in E|].
    destruct (eqc x "="%char); [discriminate|]. destruct (cut_first "="%char (a ++ "="%char :: b)) as [[]|]; [discriminate|auto].
Qed.
Lemma key_name n : ~ In "="%char n -> key n = n /\ val n = None.
Proof. intros N. unfold key, val. now rewrite cut_first_none. Qed.
Lemma key_eq n v : ~ In "="%char n -> key (n ++ #"=" ++ v) = n /\ val (n ++ #"=" ++ v) = Some v.
Proof. intros N. unfold key, val. change (#"=" ++ v) with ("="%char :: v). now rewrite cut_first_some. Qed.
Lemma has_prefix_iff s p : has_prefix s p = true <-> exists r, s = p ++ r.
Proof.
  revert s. induction p as [|y p IH]; intros s; cbn [has_prefix app].
  - split; eauto.
  - destruct s as [|x s]; [split; [discriminate|intros [r R]; discriminate]|]. rewrite andb_true_iff, eqc_eq, IH. split.
    + intros [-> [r ->]]. eauto.
    + intros [r R]. injection R as -> ->. eauto.
Qed.
Lemma skipn_app_len {A} (a b : list A) : skipn (length a) (a ++ b) = b.
Proof. induction a; auto. Qed.
Lemma nth_app_len {A} (a b : list A) : nth_error (a ++ b) (length a) = hd_error b.
Proof. induction a; auto. Qed.
(** After a name without "=", a word is that name, that name and "=", or something else. *)
Lemma split_name n w : ~ In "="%char n ->
  (eqs (key w) n = true /\ ((val w = None /\ w = n) \/ exists v, val w = Some v /\ w = n ++ "="%char :: v)) \/
  (eqs (key w) n = false /\ (has_prefix w n = false \/ exists x r, w = n ++ x :: r /\ eqc x "="%char = false)).
Proof.
  intros N. destruct (key_spec w) as [(V & K & I)|(v & V & K & I)].
  - destruct (eqs (key w) n) eqn:E.
    + apply eqs_eq in E. left. split; auto. left. split; auto. congruence.
    + right. split; auto. rewrite K in E. destruct (has_prefix w n) eqn:P; auto. apply has_prefix_iff in P as [[|x r] ->].
      * rewrite app_nil_r, eqs_refl in E. discriminate.
      * right. exists x, r. split; auto. apply eqc_neq. intros ->. apply I. apply in_or_app. right. now left.
  - destruct (eqs (key w) n) eqn:E.
    + apply eqs_eq in E. left. split; auto. right. exists v. split; auto. rewrite K, E. reflexivity.
    + right. split; auto. destruct (has_prefix w n) eqn:P; auto. apply has_prefix_iff in P as [r R].
      rewrite K in R. change (#"=" ++ v) with ("="%char :: v) in R.
      assert (X : forall (a b : bytes), key w ++ "="%char :: v = n ++ a -> b = key w -> b <> n -> exists x y, a = x :: y /\ eqc x "="%char = false).
      { clear - N I. intros a b Q -> D. revert n N Q D. induction (key w) as [|c k IH]; intros n N Q D.
        - destruct n as [|d n]; [congruence|]. cbn [app] in Q. injection Q as <- Q. exfalso. apply N. now left.
        - destruct n as [|d n].
          + cbn [app] in Q. subst a. exists c, (k ++ "="%char :: v). split; auto. apply eqc_neq. intros ->. apply I. now left.
          + cbn [app] in Q. injection Q as <- Q. apply (IH (fun H => I (or_intror H)) n); auto.
            * intros H. apply N. now right.
            * congruence. }
      destruct (X r (key w) R eq_refl) as (x & y & -> & Q).
      { intros Q. rewrite Q, eqs_refl in E. discriminate. }
      right. exists x, y. split; auto. rewrite K. exact R.
Qed.
Definition noeq (n : bytes) : bool := negb (containsc "="%char n).
Lemma noeq_ok n : noeq n = true -> ~ In "="%char n.
Proof. unfold noeq. intros H I. apply containsc_in in I. rewrite I in H. discriminate. Qed.
Lemma len_neq (n : bytes) x r : (length (n ++ x :: r) =? length n) = false.
Proof. apply Nat.eqb_neq. rewrite app_length. simpl. lia. Qed.
Lemma skip_S (n : bytes) x r : skipn (S (length n)) (n ++ x :: r) = r.
Proof. induction n; auto. Qed.
Lemma try_parse_arg_spec n w : noeq n = true -> try_parse_arg n w = if eqs (key w) n then Some (val w) else None.
Proof.
  intros N. apply noeq_ok in N. unfold try_parse_arg. destruct (split_name n w N) as [[E [[V W]|[v [V W]]]]|[E [P|(x & r & W & X)]]]; rewrite E, ?V.
  - subst w. rewrite (proj2 (has_prefix_iff n n)) by (exists []; now rewrite app_nil_r). cbn [negb]. now rewrite Nat.eqb_refl.
  - rewrite W. rewrite (proj2 (has_prefix_iff _ n)) by eauto. cbn [negb]. rewrite len_neq, nth_app_len. cbn [hd_error]. now rewrite eqc_refl, skip_S.
  - now rewrite P.
  - rewrite W. rewrite (proj2 (has_prefix_iff _ n)) by eauto. cbn [negb]. rewrite len_neq, nth_app_len. cbn [hd_error]. now rewrite X.
Qed.
Definition dflt (o : option bytes) : bytes := match o with Some v => v | None => [] end.
Lemma try_single_spec l w : forallb noeq l = true -> try_single_flag l w = if existsb (eqs (key w)) l then Some (dflt (val w)) else None.
Proof.
  induction l as [|n l IH]; intros N; auto. apply andb_prop in N as [N Nl]. apply noeq_ok in N. cbn [try_single_flag existsb].
  rewrite IH by auto.
  transitivity (if eqs (key w) n then Some (dflt (val w)) else if existsb (eqs (key w)) l then Some (dflt (val w)) else None);
    [|destruct (eqs (key w) n); reflexivity].
  generalize (if existsb (eqs (key w)) l then Some (dflt (val w)) else None). intros t.
  destruct (split_name n w N) as [[E [[V W]|[v [V W]]]]|[E [P|(x & r & W & X)]]]; rewrite E, ?V.
  - subst w. rewrite (proj2 (has_prefix_iff n n)) by (exists []; now rewrite app_nil_r). cbn [negb]. now rewrite Nat.eqb_refl.
  - rewrite W. rewrite (proj2 (has_prefix_iff _ n)) by eauto. cbn [negb]. rewrite len_neq, nth_app_len. cbn [hd_error]. now rewrite eqc_refl, skip_S.
  - now rewrite P.
  - rewrite W. rewrite (proj2 (has_prefix_iff _ n)) by eauto. cbn [negb]. rewrite len_neq, nth_app_len. cbn [hd_error]. now rewrite X.
Qed.
Definition needs (f : field) (v : option bytes) (rest : list bytes) : outcome :=
  match v with Some v => Assign f v false | None => match rest with [] => Error | v :: _ => Assign f v true end end.
Lemma try_flags_spec l f w rest : forallb noeq l = true -> try_parse_flags_value l f w rest = if existsb (eqs (key w)) l then needs f (val w) rest else NotThis.
Proof.
  induction l as [|n l IH]; intros N; auto. apply andb_prop in N as [N Nl]. cbn [try_parse_flags_value existsb]. rewrite IH by auto.
  unfold try_parse_flag_value. rewrite try_parse_arg_spec by auto. destruct (eqs (key w) n); cbn [orb orelse]; auto.
  destruct (val w); cbn [needs orelse]; auto. destruct rest; auto.
Qed.
Lemma try_required_spec n f w rest : noeq n = true -> try_required n f w rest = if eqs (key w) n then needs f (val w) rest else NotThis.
Proof.
  intros N. apply noeq_ok in N. unfold try_required. destruct (split_name n w N) as [[E [[V W]|[v [V W]]]]|[E [P|(x & r & W & X)]]]; rewrite E, ?V.
  - subst w. rewrite (proj2 (has_prefix_iff n n)) by (exists []; now rewrite app_nil_r). cbn [negb]. now rewrite skipn_all.
  - rewrite W. rewrite (proj2 (has_prefix_iff _ n)) by eauto. cbn [negb]. rewrite skipn_app_len. now rewrite eqc_refl.
  - now rewrite P.
  - rewrite W. rewrite (proj2 (has_prefix_iff _ n)) by eauto. cbn [negb]. rewrite skipn_app_len. now rewrite X.
Qed.
Lemma try_eq_suffix_spec n w : noeq n = true -> try_eq_suffix n w = if eqs (key w) n then Some (dflt (val w)) else None.
Proof.
  intros N. apply noeq_ok in N. unfold try_eq_suffix. destruct (split_name n w N) as [[E [[V W]|[v [V W]]]]|[E [P|(x & r & W & X)]]]; rewrite E, ?V.
  - subst w. rewrite (proj2 (has_prefix_iff n n)) by (exists []; now rewrite app_nil_r). cbn [negb]. now rewrite skipn_all.
  - rewrite W. rewrite (proj2 (has_prefix_iff _ n)) by eauto. cbn [negb]. rewrite skipn_app_len. now rewrite eqc_refl.
  - now rewrite P.
  - rewrite W. rewrite (proj2 (has_prefix_iff _ n)) by eauto. cbn [negb]. rewrite skipn_app_len. now rewrite X.
Qed.
Lemma eqs_word n w : noeq n = true -> eqs w n = eqs (key w) n && (match val w with None => true | Some _ => false end).
Proof.
  intros N. apply noeq_ok in N. destruct (key_spec w) as [(V & K & I)|(v & V & K & I)]; rewrite V.
  - now rewrite K, andb_true_r.
  - rewrite andb_false_r. destruct (eqs w n) eqn:E; auto. apply eqs_eq in E. exfalso. apply N. rewrite <- E, K. apply in_or_app. right. now left.
Qed.
Definition strace_of (v : bytes) : outcome :=
  if is_true v || eqs v #"on" then Assign FStrace #"on" false else if eqs v #"off" || eqs v #"false" then Assign FStrace #"off" false else Panic.
Lemma parse_strace_spec w :
  parse_strace w = if eqs (key w) #"--strace" then strace_of (dflt (val w)) else if eqs (key w) #"--stack-trace" then strace_of (dflt (val w)) else NotThis.
Proof.
  unfold parse_strace. cbv zeta.
  assert (X : forall n, noeq n = true -> has_prefix w n = true ->
     (if length w =? length n then Assign FStrace #"on" false
      else match nth_error w (length n) with
           | Some c => if negb (eqc c "="%char) then NotThis
                       else if eqs (skipn (S (length n)) w) #"" || eqs (skipn (S (length n)) w) #"on" || eqs (skipn (S (length n)) w) #"true" then Assign FStrace #"on" false
                       else if eqs (skipn (S (length n)) w) #"off" || eqs (skipn (S (length n)) w) #"false" then Assign FStrace #"off" false else Panic
           | None => NotThis end) = if eqs (key w) n then strace_of (dflt (val w)) else NotThis).
  { intros n N P. apply noeq_ok in N. destruct (split_name n w N) as [[E [[V W]|[v [V W]]]]|[E [P'|(x & r & W & Y)]]]; rewrite E, ?V.
    - subst w. rewrite Nat.eqb_refl. reflexivity.
    - rewrite W. rewrite len_neq, nth_app_len. cbn [hd_error]. rewrite eqc_refl, skip_S. cbn [negb dflt]. unfold strace_of, is_true.
      destruct (eqs v #""), (eqs v #"on"), (eqs v #"true"); reflexivity.
    - congruence.
    - rewrite W. rewrite len_neq, nth_app_len. cbn [hd_error]. now rewrite Y. }
  assert (Y : forall n m, eqs (key w) n = true -> has_prefix n m = false -> has_prefix w m = true -> has_prefix n m = true \/ has_prefix m n = true).
  { intros n m K D P. apply eqs_eq in K. apply has_prefix_iff in P as [r P]. destruct (key_spec w) as [(_ & K' & _)|(v & _ & K' & _)].
    - left. apply has_prefix_iff. exists r. congruence.
    - rewrite K in K'. rewrite K' in P. clear - P. revert m P. induction n as [|x n IH]; intros [|y m] P; auto.
      cbn [app] in P. injection P as -> P. cbn [has_prefix]. rewrite eqc_refl. cbn [andb]. auto. }
  destruct (has_prefix w #"--strace") eqn:P1.
  - rewrite X by auto. destruct (eqs (key w) #"--strace"); auto. destruct (eqs (key w) #"--stack-trace") eqn:K; auto.
    destruct (Y _ #"--strace" K eq_refl P1); discriminate.
  - destruct (eqs (key w) #"--strace") eqn:K1.
    + exfalso. apply eqs_eq in K1. assert (has_prefix w #"--strace" = true); [|congruence]. apply has_prefix_iff.
      destruct (key_spec w) as [(_ & K' & _)|(v & _ & K' & _)]; rewrite K1 in K'; [exists []; rewrite app_nil_r; auto|eauto].
    + destruct (has_prefix w #"--stack-trace") eqn:P2; [now apply X|]. destruct (eqs (key w) #"--stack-trace") eqn:K2; auto.
      exfalso. apply eqs_eq in K2. assert (has_prefix w #"--stack-trace" = true); [|congruence]. apply has_prefix_iff.
      destruct (key_spec w) as [(_ & K' & _)|(v & _ & K' & _)]; rewrite K2 in K'; [exists []; rewrite app_nil_r; auto|eauto].
Qed.
Lemma use_file_patches_spec w :
  try_use_file_patches w = if eqs (key w) #"--use-file-patches" then
    match val w with None => NotThis | Some v => if is_true v then Assign FUseFilePatches #"true" false else if eqs v #"false" then Assign FUseFilePatches #"false" false else Error end
    else NotThis.
Proof.
  unfold try_use_file_patches. destruct (split_name #"--use-file-patches" w) as [[E [[V W]|[v [V W]]]]|[E P]].
  - now apply noeq_ok.
  - rewrite E, V, W. reflexivity.
  - rewrite E, V, W. change (#"--use-file-patches" ++ "="%char :: v) with (#"--use-file-patches=" ++ v).
    rewrite (proj2 (has_prefix_iff _ #"--use-file-patches=")) by eauto. cbv zeta. rewrite skipn_app_len. unfold is_true. now rewrite orb_comm.
  - rewrite E. destruct (has_prefix w #"--use-file-patches=") eqn:Q; auto. apply has_prefix_iff in Q as [r Q]. exfalso.
    change (#"--use-file-patches=" ++ r) with (#"--use-file-patches" ++ "="%char :: r) in Q.
    destruct P as [P|(x & r' & P & X)].
    + assert (has_prefix w #"--use-file-patches" = true); [|congruence]. apply has_prefix_iff. eauto.
    + rewrite P in Q. apply app_inv_head in Q. injection Q as -> _. discriminate.
Qed.

(** The classification looks the name up. *)
Fixpoint look (n : bytes) (l : list (bytes * (field * kind))) : option (field * kind) :=
  match l with [] => None | (m, x) :: r => if eqs n m then Some x else look n r end.
Definition act (x : option (field * kind)) (v : option bytes) (rest : list bytes) : outcome :=
  match x with
  | None => NotThis
  | Some (f, Alone) => match v with None => Assign f #"true" false | Some _ => NotThis end
  | Some (f, NeedsValue) => needs f v rest
  | Some (f, MayHave m) => match m (dflt v) with Store x => Assign f x false | Refuse => Error | Crash => Panic end
  end.

Lemma try_switches_spec w : try_switches switches w =
  match val w with
  | Some _ => NotThis
  | None => fold_right (fun (e : list bytes * field) o => if existsb (eqs (key w)) (fst e) then Assign (snd e) #"true" false else o) NotThis switches
  end.
Proof.
  assert (G : forall l, forallb (fun e => forallb noeq (fst e)) l = true -> try_switches l w =
    match val w with Some _ => NotThis | None => fold_right (fun (e : list bytes * field) o => if existsb (eqs (key w)) (fst e) then Assign (snd e) #"true" false else o) NotThis l end);
    [|now apply G].
  induction l as [|[names f] l IH]; intros N; [now destruct (val w)|]. apply andb_prop in N as [N Nl]. cbn [try_switches fold_right fst snd] in *.
  assert (X : existsb (eqs w) names = existsb (eqs (key w)) names && match val w with None => true | Some _ => false end).
  { clear - N. induction names as [|n names IH]; [now destruct (val w)|]. apply andb_prop in N as [N N']. cbn [existsb].
    rewrite IH by auto. rewrite (eqs_word n w N). destruct (eqs (key w) n), (existsb (eqs (key w)) names), (val w); reflexivity. }
  rewrite X, IH by auto. destruct (val w); [now rewrite andb_false_r|now rewrite andb_true_r].
Qed.
Fixpoint fv (l : list (list bytes * how)) (k : bytes) (v : option bytes) (rest : list bytes) : outcome :=
  match l with
  | [] => NotThis
  | (flags, Single m) :: more => (if existsb (eqs k) flags then m (dflt v) else NotThis) <|> fv more k v rest
  | (flags, Value f) :: more => (if existsb (eqs k) flags then needs f v rest else NotThis) <|> fv more k v rest
  end.
Lemma try_flag_values_spec l w rest : forallb (fun e => forallb noeq (fst e)) l = true -> try_flag_values l w rest = fv l (key w) (val w) rest.
Proof.
  induction l as [|[flags [f|m]] l IH]; intros N; auto; apply andb_prop in N as [N Nl]; cbn [try_flag_values fv]; rewrite IH by auto; cbn [fst] in N.
  - now rewrite try_flags_spec.
  - rewrite try_single_spec by auto. destruct (existsb (eqs (key w)) flags); reflexivity.
Qed.
Ltac closing v :=
  unfold strace_of, truth;
  repeat match goal with
         | |- ?x = ?x => reflexivity
         | |- context [is_true v] => destruct (is_true v); cbn [orb orelse]
         | |- context [eqs v ?n] => destruct (eqs v n); cbn [orb orelse]
         end; reflexivity.
Lemma classify_spec c w rest : classify c w rest = act (look (key w) (known c)) (val w) rest.
Proof.
  unfold classify. rewrite try_switches_spec, use_file_patches_spec, parse_strace_spec.
  rewrite try_eq_suffix_spec, !try_required_spec, !try_single_spec by reflexivity.
  rewrite try_flag_values_spec by (now destruct c).
  generalize (key w) (val w). clear w. intros k v.
  unfold switches, flag_values, known. change affirmative with is_true.
  set (tl1 := if cmd_eqb c Setup then _ else []). set (tl2 := if cmd_eqb c Test then _ else []). set (tl := match c with Build => _ | _ => _ end).
  assert (T : fv (tl1 ++ tl2) k v rest = act (look k tl) v rest).
  { subst tl1 tl2 tl. destruct c; cbn [cmd_eqb app fv look existsb orelse dflt]; auto.
    - destruct (eqs k #"--unified"); cbn [orb]; auto. destruct (is_true (dflt v)) eqn:Y; cbn [act]; rewrite ?Y; auto. destruct (eqs (dflt v) #"false"); auto.
    - destruct (eqs k #"--delete"); auto. destruct (eqs k #"--patch-goroot-in-place"); auto. destruct (eqs k #"--skip-rebuild-compiler-and-go"); auto. }
  assert (U : forall n, existsb (eqs n) (map fst (known Build)) = true -> eqs k n = true -> act (look k tl) v rest = NotThis).
  { subst tl. intros n I E. apply eqs_eq in E. subst k. clear T. apply existsb_exists in I as (m & I & E). apply eqs_eq in E. subst m.
    destruct c; cbn [look act]; auto; repeat (destruct I as [<-|I]; [reflexivity|]); destruct I. }
  clearbody tl1 tl2 tl. cbn [fold_right fst snd existsb fv look app]. rewrite T. clear T tl1 tl2.
  repeat match goal with
  | |- context [eqs k ?n] =>
      let E := fresh "E" in destruct (eqs k n) eqn:E;
      [clear - U E; pose proof (U n eq_refl E) as W; clear U; destruct v as [v|]; [|cbn [orb orelse of_single act dflt needs]; destruct rest; reflexivity];
       cbn [orb orelse of_single act dflt look fst snd needs];
       match goal with
       | |- _ = NotThis => rewrite W; clear W; apply eqs_eq in E; subst k; vm_compute; reflexivity
       | |- _ => closing v
       end
      |clear E; cbn [orb orelse of_single]]
  end.
  destruct v; reflexivity.
Qed.
