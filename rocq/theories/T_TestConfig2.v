(** * The environment and the commands of the test explorer (C115, C116) *)
From Coq Require Import Ascii String List Arith Bool ZArith Lia.
From Verif Require Import M_Str P_Str M_Version M_Coverage T_Coverage M_TestConfig T_TestConfig.
Import ListNotations.
Open Scope nat_scope.
Open Scope list_scope.

(** ** C115: variables *)
Lemma digits_bound d : Forall (fun c => is_digit c = true) d -> (0 <= digits_value d < 10 ^ Z.of_nat (length d))%Z.
Proof.
  induction d as [|c d IH] using rev_ind; intros F; [cbn; lia|].
  apply Forall_app in F as [F C]. inversion C as [|? ? D _]; subst. specialize (IH F). rewrite app_length. cbn [length].
  unfold digits_value in *. rewrite fold_left_app. cbn [fold_left].
  assert (X : (0 <= Z.of_nat (nat_of_ascii c - 48) <= 9)%Z) by (unfold is_digit in D; apply andb_true_iff in D as [D1 D2]; rewrite ?Nat.leb_le in *; lia).
  replace (Z.of_nat (length d + 1)) with (Z.succ (Z.of_nat (length d))) by lia. rewrite Z.pow_succ_r by lia. lia.
Qed.
Lemma fmt_short n : forall fuel z, (0 <= z < 10 ^ Z.of_nat n)%Z -> 1 <= n -> length (fmt_digits fuel z) <= n.
Proof.
  induction n as [|n IH]; intros fuel z H N; [lia|]. destruct fuel as [|f]; cbn [fmt_digits]; [cbn; lia|]. rewrite app_length. cbn [length].
  destruct (z <? 10)%Z eqn:E; [cbn; lia|]. apply Z.ltb_ge in E. destruct n as [|n]; [change (10 ^ Z.of_nat 1)%Z with 10%Z in H; lia|].
  rewrite Nat2Z.inj_succ, Z.pow_succ_r in H by lia.
  assert (X : length (fmt_digits f (z / 10)) <= S n); [|lia]. apply IH; [|lia]. split; [apply Z.div_pos; lia|]. apply Z.div_lt_upper_bound; lia.
Qed.
Lemma abs_format z : format_int z = (if (z <? 0)%Z then #"-" else []) ++ format_int (Z.abs z).
Proof.
  unfold format_int. replace (Z.abs z <? 0)%Z with false by (symmetry; apply Z.ltb_ge; lia). destruct (z <? 0)%Z eqn:E.
  - apply Z.ltb_lt in E. rewrite Z.abs_neq by lia. reflexivity.
  - apply Z.ltb_ge in E. rewrite Z.abs_eq by lia. reflexivity.
Qed.
Lemma abs_digits z : (0 <= z)%Z -> let d := format_int z in d <> [] /\ Forall (fun c => is_digit c = true) d /\ digits_value d = z.
Proof. intros H. unfold format_int. replace (z <? 0)%Z with false by (symmetry; apply Z.ltb_ge; lia). now apply fmt_log. Qed.
Lemma length_short z : (0 <= z)%Z -> length (format_int z) <= 6 <-> (z < 10 ^ 6)%Z.
Proof.
  intros H. split.
  - intros L. destruct (abs_digits z H) as (_ & F & V). pose proof (digits_bound _ F) as [_ B]. rewrite V in B.
    eapply Z.lt_le_trans; [exact B|]. apply Z.pow_le_mono_r; lia.
  - intros L. unfold format_int. replace (z <? 0)%Z with false by (symmetry; apply Z.ltb_ge; lia). apply fmt_short; [|lia]. split; [auto|exact L].
Qed.
(** Texts, truth values and the integers of up to six digits are given to the tests as they
    are written. Missing: longer numbers (C115_number_refuted), null (C115_null_refuted);
    arrays and objects are not modelled. *)
Definition written (v : json) (s : bytes) : Prop :=
  v = JStr s \/ (v = JBool true /\ s = #"true") \/ (v = JBool false /\ s = #"false") \/ exists z, v = JInt z /\ (Z.abs z < 10 ^ 6)%Z /\ s = format_int z.
Theorem C115_env_partial (m e : list (bytes * json)) (c : config) (k : bytes) (v : json) (s : bytes) :
  Parse (JObj m) = Some c -> says m #"env" (JObj e) -> says e k v -> written v s -> EnvPair c k = Some (k ++ #"=" ++ s).
Proof.
  intros P E K W. apply parse_spec in P as (X & _). destruct X as [[N _]|(w & S & ->)]; [exfalso; now apply (N _ E)|].
  apply set_some in E, S. rewrite E in S. injection S as S.
  unfold EnvPair. rewrite <- S. destruct K as [_ K]. apply member_some in K. rewrite K.
  assert (Y : sprint v = Some s); [|rewrite Y; reflexivity].
  destruct W as [-> |[[-> ->]|[[-> ->]|(z & -> & L & ->)]]]; auto. cbn [sprint]. f_equal. unfold sprint_int. rewrite (abs_format z). f_equal.
  apply (length_short (Z.abs z)) in L; [|lia]. apply Nat.leb_le in L. now rewrite L.
Qed.
(** A variable that the file does not set is not given. *)
Theorem C115_only (m : list (bytes * json)) (c : config) (k : bytes) : Parse (JObj m) = Some c ->
  (forall e v, says m #"env" (JObj e) -> ~ In (k, v) e) -> EnvPair c k = None.
Proof.
  intros P H. apply parse_spec in P as (X & _). unfold EnvPair. destruct X as [[N ->]|(w & S & ->)]; auto. replace (member k (c_env c)) with (@None json); auto.
  symmetry. apply member_none. intros v. now apply (H (c_env c) v).
Qed.
Lemma drop_nil s : drop_zeros s = [] -> forall c, In c s -> c = "0"%char.
Proof. induction s as [|x s IH]; cbn [drop_zeros]; intros H c I; [destruct I|]. destruct (eqc x "0"%char) eqn:E; [|discriminate]. apply eqc_eq in E. destruct I as [<- |I]; auto. Qed.
Lemma zeros_value d : (forall c, In c d -> c = "0"%char) -> digits_value d = 0%Z.
Proof.
  induction d as [|c d IH] using rev_ind; intros H; auto. unfold digits_value in *. rewrite fold_left_app. cbn [fold_left]. rewrite IH by (intros x I; apply H; apply in_or_app; auto).
  rewrite (H c) by (apply in_or_app; right; now left). reflexivity.
Qed.
(** From a million on a number is written with an exponent. *)
Theorem C115_number_refuted (z : Z) : (10 ^ 6 <= Z.abs z)%Z -> exists s, sprint (JInt z) = Some s /\ s <> format_int z /\ In "e"%char s.
Proof.
  intros L. exists (sprint_int z). split; [reflexivity|].
  assert (X : In "e"%char (sprint_int z)).
  { unfold sprint_int. apply in_or_app. right. destruct (length (format_int (Z.abs z)) <=? 6) eqn:E; [apply Nat.leb_le in E; apply length_short in E; lia|].
    destruct (rev (drop_zeros (rev (format_int (Z.abs z))))) as [|c r] eqn:R.
    - exfalso. apply (f_equal (@rev _)) in R. rewrite rev_involutive in R. cbn [rev] in R. destruct (abs_digits (Z.abs z) ltac:(lia)) as (_ & _ & V).
      rewrite zeros_value in V; [lia|]. intros x I. apply (drop_nil _ R). now apply -> in_rev.
    - right. apply in_or_app. right. apply in_or_app. left. now left. }
  split; auto. intros Y. rewrite Y in X. rewrite abs_format in X. apply in_app_iff in X as [X|X].
  - destruct (z <? 0)%Z; cbn in X; intuition discriminate.
  - destruct (abs_digits (Z.abs z) ltac:(lia)) as (_ & F & _). rewrite Forall_forall in F. specialize (F _ X). discriminate F.
Qed.
Theorem C115_null_refuted (c : config) (k : bytes) : member k (c_env c) = Some JNull -> EnvPair c k = Some (k ++ #"=<nil>").
Proof. intros H. unfold EnvPair. rewrite H. reflexivity. Qed.
Example C115_nontrivial : sprint (JInt 8080) = Some #"8080" /\ sprint (JInt (-30)) = Some #"-30" /\ sprint (JInt 1000000) = Some #"1e+06" /\ sprint (JInt 12345678) = Some #"1.2345678e+07"
  /\ (exists c, Parse (JObj [(#"env", JObj [(#"A", JInt 999999)])]) = Some c /\ EnvPair c #"A" = Some #"A=999999").
Proof. repeat split. eexists. split; reflexivity. Qed.

(** ** C116: what is run *)
Definition first_set (l : list bytes) (d : bytes) : bytes := match filter (fun s => negb (eqs s [])) l with s :: _ => s | [] => d end.
Definition of_file {A} (file : option config) (f : config -> A) (d : A) : A := match file with Some c => f c | None => d end.
(** mock rules are for xgo, if it is new enough *)
Definition mocks (marshal : json -> bytes) (mockable : bool) (file : option config) (goCmd : bytes) : list bytes :=
  if eqs goCmd #"xgo" && mockable then flat_map (fun r => [#"--mock-rule"; marshal r]) (of_file file c_mockRules []) else [].
(** The command of a run: the command line's program or else the file's or else the default;
    the flags of the file, of the command line, the mock rules, those for coverage, and the
    trace; what is to be tested; and after -args the arguments of the file and of the command
    line. *)
Theorem C116_run (marshal : json -> bytes) (mockable : bool) (file : option config) (o : options) (cov : list bytes) (many : bool) (traceDir : bytes) (targets : list bytes) :
  let goCmd := first_set [o_goCommand o; of_file file c_goCmd []] (o_default o) in
  let args := of_file file c_args [] ++ o_args o in
  session_run (merge marshal mockable file o) cov many traceDir targets =
    (first_set [goCmd] #"go",
     [#"test"; #"-v"] ++ (if many then [#"-json"] else []) ++ of_file file c_flags [] ++ o_flags o ++ mocks marshal mockable file goCmd ++ cov
       ++ (if eqs traceDir [] then [] else [#"--strace"; #"--strace-dir"; traceDir]) ++ targets
       ++ match args with [] => [] | _ => #"-args" :: (if of_file file c_bypass false then [#"--"] else []) ++ args end).
Proof.
  cbv zeta. set (conf := match file with Some c => c | None => no_config end).
  assert (H : forall A (f : config -> A) d, f no_config = d -> of_file file f d = f conf) by (intros A f d <-; destruct file; reflexivity).
  unfold mocks. rewrite !H by reflexivity. unfold session_run, session_flags, merge. cbv zeta. fold conf. cbn [c_goCmd c_flags c_bypass c_args].
  rewrite andb_true_r. unfold runTest.
  assert (G : first_set [o_goCommand o; c_goCmd conf] (o_default o) = match o_goCommand o with [] => match c_goCmd conf with [] => o_default o | s => s end | s => s end)
    by (unfold first_set; cbn [filter]; destruct (o_goCommand o); [destruct (c_goCmd conf)|]; reflexivity).
  rewrite G. set (g := match o_goCommand o with [] => match c_goCmd conf with [] => o_default o | s => s end | s => s end) in *. clearbody g. clear G.
  f_equal; [unfold first_set; cbn [filter]; destruct g; reflexivity|].
  assert (M : (if eqs g #"xgo" && negb (length (c_mockRules conf) =? 0) && mockable then (c_flags conf ++ o_flags o) ++ flat_map (fun r => [#"--mock-rule"; marshal r]) (c_mockRules conf) else c_flags conf ++ o_flags o)
    = (c_flags conf ++ o_flags o) ++ (if eqs g #"xgo" && mockable then flat_map (fun r => [#"--mock-rule"; marshal r]) (c_mockRules conf) else [])).
  { destruct (eqs g #"xgo"), mockable, (c_mockRules conf); cbn [andb length Nat.eqb negb flat_map]; rewrite ?app_nil_r; reflexivity. }
  rewrite M, <- !app_assoc. f_equal. f_equal. f_equal. f_equal. f_equal. f_equal. destruct traceDir; cbn [eqs app]; [|do 3 f_equal]; f_equal; destruct (c_args conf ++ o_args o); reflexivity.
Qed.
(** Whether coverage is collected: not with --coverage=false, and otherwise unless the file
    disables it, if the command line does not ask for it. Missing: a command line that does
    (C116_coverage_refuted). *)
Theorem C116_coverage_partial (marshal : json -> bytes) (mockable : bool) (file : option config) (o : options) :
  let disabled := of_file file (fun c => match c_coverage c with Some v => cc_disabled v | None => false end) false in
  (o_coverage o = #"false" -> coverage_on (merge marshal mockable file o) = false)
  /\ (o_coverage o = [] -> coverage_on (merge marshal mockable file o) = negb disabled)
  /\ (o_coverage o = #"true" -> disabled = false -> coverage_on (merge marshal mockable file o) = true)
  /\ (o_coverage o <> #"false" -> coverage_base (merge marshal mockable file o) =
        first_set [o_diffWith o; of_file file (fun c => match c_coverage c with Some v => cc_diffWith v | None => [] end) []] #"origin/master").
Proof.
  cbv zeta. unfold coverage_on, coverage_base, merge. cbv zeta. cbn [c_coverage].
  set (conf := match file with Some c => c | None => no_config end).
  assert (D : of_file file (fun c => match c_coverage c with Some v => cc_disabled v | None => false end) false = cc_disabled (match c_coverage conf with Some c => c | None => no_cov end)).
  { unfold conf. destruct file as [c|]; cbn [of_file]; [destruct (c_coverage c); reflexivity|reflexivity]. }
  assert (W : of_file file (fun c => match c_coverage c with Some v => cc_diffWith v | None => [] end) [] = cc_diffWith (match c_coverage conf with Some c => c | None => no_cov end)).
  { unfold conf. destruct file as [c|]; cbn [of_file]; [destruct (c_coverage c); reflexivity|reflexivity]. }
  rewrite D, W. clear D W. set (cov := match c_coverage conf with Some c => c | None => no_cov end). clearbody cov. repeat match goal with |- _ /\ _ => split end.
  - intros ->. rewrite eqs_refl. reflexivity.
  - intros ->. reflexivity.
  - intros -> N. cbn. now rewrite N.
  - intros N. apply eqs_false in N. rewrite N. cbn [cc_diffWith]. unfold first_set. cbn [filter]. destruct (o_diffWith o) as [|c w]; [destruct (cc_diffWith cov); reflexivity|reflexivity].
Qed.
(** --coverage does not switch on what the file disables. *)
Theorem C116_coverage_refuted (marshal : json -> bytes) (mockable : bool) (c : config) (v : covconf) (o : options) :
  c_coverage c = Some v -> cc_disabled v = true -> o_coverage o = #"true" -> coverage_on (merge marshal mockable (Some c) o) = false.
Proof. intros C D O. unfold coverage_on, merge. cbv zeta. cbn [c_coverage]. rewrite C, O. cbn. now rewrite D. Qed.
(** Debugging in a session gives the test the arguments of file and command line; the old
    addresses /run and /debug lose them. *)
Theorem C116_debug (marshal : json -> bytes) (mockable : bool) (file : option config) (o : options) (name : bytes) :
  session_debug_args (merge marshal mockable file o) name =
    [#"-test.v"; #"-test.run"; #"^" ++ name ++ #"$"] ++ (if of_file file c_bypass false then [#"--"] else []) ++ of_file file c_args [] ++ o_args o.
Proof. destruct file; reflexivity. Qed.
Theorem C116_args_refuted : exists file o name arg, In arg (c_args file) /\
  let c := merge (fun _ => []) false (Some file) o in
  ~ In arg (snd (poll_run c name [] [] [])) /\ ~ In arg (poll_debug_args c name []) /\ In arg (snd (session_run c [] false [] [])).
Proof.
  exists {| c_go := None; c_goCmd := []; c_exclude := []; c_env := []; c_flags := []; c_args := [#"--db=test"]; c_bypass := false; c_mockRules := []; c_xgo := None; c_coverage := None |},
    {| o_default := []; o_goCommand := []; o_exclude := []; o_flags := []; o_args := []; o_coverage := []; o_profile := []; o_diffWith := [] |}, #"TestX", #"--db=test".
  split; [now left|]. cbv zeta. split; [|split].
  - intros I. vm_compute in I. intuition discriminate.
  - intros I. vm_compute in I. intuition discriminate.
  - vm_compute. auto 10.
Qed.
Example C116_nontrivial :
  let file := {| c_go := None; c_goCmd := #"xgo"; c_exclude := []; c_env := []; c_flags := [#"-p=1"]; c_args := [#"-x"]; c_bypass := true; c_mockRules := [JObj []]; c_xgo := None; c_coverage := None |} in
  let o := {| o_default := #"go"; o_goCommand := []; o_exclude := []; o_flags := [#"-v"]; o_args := []; o_coverage := []; o_profile := []; o_diffWith := [] |} in
  session_run (merge (fun _ => #"{}") true (Some file) o) [#"-cover"] true [] [#"./a"] = (#"xgo", [#"test"; #"-v"; #"-json"; #"-p=1"; #"-v"; #"--mock-rule"; #"{}"; #"-cover"; #"./a"; #"-args"; #"--"; #"-x"]).
Proof. reflexivity. Qed.
