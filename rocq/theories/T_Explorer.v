(** * C83-C85: what the test explorer lists and runs *)
From Coq Require Import Ascii String List Arith Bool Lia Permutation ZArith.
From Verif Require Import M_Str M_Explorer.
Import ListNotations.
Open Scope nat_scope. Open Scope list_scope.

(** ** Specification of go test -run (testing/match.go, regexp; Go 1.20 and later) *)
(** A part of the syntax of regular expressions: characters, escaped punctuation, ^, $ and the dot. *)
Inductive atom := ALit (c : ascii) | ABol | AEol | AAny.
Definition one_of (c : ascii) (l : bytes) : bool := existsb (Ascii.eqb c) l.
Fixpoint re_atoms (s : bytes) : option (list atom) :=
  match s with
  | [] => Some []
  | c :: r =>
      if Ascii.eqb c "\"%char then
        match r with
        | d :: r' => if one_of d #"\.+*?()|[]{}^$" then option_map (cons (ALit d)) (re_atoms r') else None
        | [] => None
        end
      else if Ascii.eqb c "^"%char then option_map (cons ABol) (re_atoms r)
      else if Ascii.eqb c "$"%char then option_map (cons AEol) (re_atoms r)
      else if Ascii.eqb c "."%char then option_map (cons AAny) (re_atoms r)
      else if one_of c #"+*?()|[]{}" then None
      else option_map (cons (ALit c)) (re_atoms r)
  end.
Fixpoint mat (l : list atom) (start : bool) (s : bytes) : Prop :=
  match l with
  | [] => True
  | ALit c :: r => match s with x :: s' => x = c /\ mat r false s' | [] => False end
  | AAny :: r => match s with x :: s' => x <> "010"%char /\ mat r false s' | [] => False end
  | ABol :: r => start = true /\ mat r start s
  | AEol :: r => s = [] /\ mat r start s
  end.
(** regexp.MatchString: somewhere in the text. *)
Definition matches (re text : bytes) : Prop :=
  exists l a b, re_atoms re = Some l /\ text = a ++ b /\ mat l (match a with [] => true | _ => false end) b.
(** splitRegexp: at / and | outside brackets. *)
Fixpoint split_re (s : bytes) (cs : nat) (cp : Z) (cur : bytes) (a : list bytes) {struct s} : list (list bytes) :=
  match s with
  | [] => [a ++ [cur]]
  | c :: r =>
      if Ascii.eqb c "\"%char then match r with d :: r' => split_re r' cs cp (cur ++ [c; d]) a | [] => [a ++ [cur ++ [c]]] end
      else if Ascii.eqb c "["%char then split_re r (S cs) cp (cur ++ [c]) a
      else if Ascii.eqb c "]"%char then split_re r (pred cs) cp (cur ++ [c]) a
      else if Ascii.eqb c "("%char then split_re r cs (if (cs =? 0)%nat then (cp + 1)%Z else cp) (cur ++ [c]) a
      else if Ascii.eqb c ")"%char then split_re r cs (if (cs =? 0)%nat then (cp - 1)%Z else cp) (cur ++ [c]) a
      else if Ascii.eqb c "/"%char && (cs =? 0) && (cp =? 0)%Z then split_re r cs cp [] (a ++ [cur])
      else if Ascii.eqb c "|"%char && (cs =? 0) && (cp =? 0)%Z then (a ++ [cur]) :: split_re r cs cp [] []
      else split_re r cs cp (cur ++ [c]) a
  end.
(** One alternative: the n-th part is for the n-th element of the name. *)
Fixpoint parts_match (m name : list bytes) : Prop :=
  match m, name with re :: m', x :: r => matches re x /\ parts_match m' r | _, _ => True end.
(** go test -run pattern runs the test with these elements ([TestA; sub] for TestA/sub), if there is one. *)
Definition go_runs (pattern : bytes) (name : list bytes) : Prop := exists m, In m (split_re pattern 0 0%Z [] []) /\ parts_match m name.
(** Characters that are literal in a pattern of xgo's: those of identifiers, and most others. *)
Definition literal (c : ascii) : Prop := one_of c #"\.+*?()^$" = false.
Definition top_level (n : bytes) : Prop := Forall literal n /\ ~ In "/"%char n.
Definition has_infix (t n : bytes) : Prop := exists a b, t = a ++ n ++ b.

(** ** Proofs: patterns *)
Lemma eqb_sym_false a b : a <> b -> Ascii.eqb a b = false. Proof. apply Ascii.eqb_neq. Qed.
Lemma one_of_In c l : one_of c l = true <-> In c l.
Proof. unfold one_of. rewrite existsb_exists. split; [intros (x & I & E); apply Ascii.eqb_eq in E; now subst|intros I; exists c; split; auto; apply Ascii.eqb_refl]. Qed.
Lemma containsc_one c l : containsc c l = one_of c l.
Proof. unfold containsc, one_of. apply eq_true_iff_eq. rewrite !existsb_exists. unfold eqc. split; intros (x & I & E); exists x; split; auto; rewrite Ascii.eqb_sym; auto. Qed.
Definition esc_cases c : Prop := (one_of c #"{}[]|" = true /\ escape_char c = ["\"%char; c]) \/ (one_of c #"{}[]|" = false /\ escape_char c = [c]).
Lemma escape_cases c : esc_cases c.
Proof. unfold esc_cases, escape_char. rewrite containsc_one. destruct (one_of c #"{}[]|"); auto. Qed.
Ltac chars := repeat match goal with H : one_of ?c _ = _ |- _ => revert H end; match goal with c : ascii |- _ => destruct c as [[] [] [] [] [] [] [] []] end; cbv; congruence.
(** The pattern is read as the name. *)
Fixpoint feed (cur : bytes) (a : list bytes) (n : bytes) : bytes * list bytes :=
  match n with [] => (cur, a) | c :: r => if Ascii.eqb c "/"%char then feed [] (a ++ [cur]) r else feed (cur ++ escape_char c) a r end.
Lemma split_literal c rest cur a : literal c -> c <> "/"%char -> split_re (escape_char c ++ rest) 0 0%Z cur a = split_re rest 0 0%Z (cur ++ escape_char c) a.
Proof.
  intros L N. unfold literal in L. destruct (escape_cases c) as [[X ->]|[X ->]]; cbn [app].
  - cbn [split_re]. reflexivity.
  - cbn [split_re].
    assert (E1 : Ascii.eqb c "\"%char = false) by chars. assert (E2 : Ascii.eqb c "["%char = false) by chars. assert (E3 : Ascii.eqb c "]"%char = false) by chars.
    assert (E4 : Ascii.eqb c "("%char = false) by chars. assert (E5 : Ascii.eqb c ")"%char = false) by chars. assert (E7 : Ascii.eqb c "|"%char = false) by chars.
    rewrite E1, E2, E3, E4, E5, (eqb_sym_false _ _ N), E7. reflexivity.
Qed.
Lemma split_feed n : Forall literal n -> forall rest cur a, split_re (escape_name n ++ rest) 0 0%Z cur a = let '(cur', a') := feed cur a n in split_re rest 0 0%Z cur' a'.
Proof.
  induction 1 as [|c n L F IH]; intros rest cur a; [reflexivity|]. unfold escape_name. cbn [flat_map feed]. fold (escape_name n). rewrite <- app_assoc.
  destruct (Ascii.eqb_spec c "/"%char) as [->|N].
  - change (escape_char "/"%char) with ["/"%char]. cbn [app split_re]. cbn -[split_re]. apply IH.
  - rewrite split_literal by auto. apply IH.
Qed.
Definition glue (cur : bytes) (l : list bytes) : list bytes := match l with x :: r => (cur ++ x) :: r | [] => [cur] end.
Lemma feed_split n : forall cur a, let '(cur', a') := feed cur a n in a' ++ [cur'] = a ++ glue cur (map escape_name (split "/"%char n)).
Proof.
  induction n as [|c n IH]; intros cur a; cbn [feed split map].
  - cbn. now rewrite app_nil_r.
  - unfold eqc. destruct (Ascii.eqb_spec c "/"%char) as [->|N].
    + specialize (IH [] (a ++ [cur])). destruct (feed [] (a ++ [cur]) n) as [cur' a']. rewrite IH. cbn. rewrite app_nil_r, <- app_assoc. cbn. f_equal. f_equal.
      pose proof (split_nonempty "/"%char n). destruct (split "/"%char n); [tauto|]. reflexivity.
    + specialize (IH (cur ++ escape_char c) a). destruct (feed (cur ++ escape_char c) a n) as [cur' a']. rewrite IH. f_equal.
      pose proof (split_nonempty "/"%char n). destruct (split "/"%char n) as [|h t]; [tauto|]. cbn. now rewrite <- app_assoc.
Qed.
(** Adding a last character to the last element. *)
Fixpoint seal (post : bytes) (l : list bytes) : list bytes := match l with [] => [post] | [x] => [x ++ post] | x :: r => x :: seal post r end.
Lemma seal_snoc post a x : seal post (a ++ [x]) = a ++ [x ++ post].
Proof. induction a as [|y a IH]; cbn; auto. destruct (a ++ [x]) eqn:E; [destruct a; discriminate|]. now rewrite IH. Qed.
Definition alternative (pre post n : bytes) : list bytes := seal post (glue pre (map escape_name (split "/"%char n))).
Lemma split_dollar cur a : split_re #"$" 0 0%Z cur a = [seal #"$" (a ++ [cur])].
Proof. rewrite seal_snoc. reflexivity. Qed.
Fixpoint alternatives (pre : bytes) (l : list bytes) : list (list bytes) :=
  match l with
  | [] => [[pre ++ #"$"]]
  | [n] => [alternative pre #"$" n]
  | n :: r => alternative pre [] n :: alternatives [] r
  end.
Lemma seal_nil l : l <> [] -> seal [] l = l.
Proof. induction l as [|x [|y r] IH]; intros N; [tauto|cbn; now rewrite app_nil_r|]. change (seal [] (x :: y :: r)) with (x :: seal [] (y :: r)). now rewrite IH. Qed.
Lemma split_names l : Forall (Forall literal) l -> forall pre, split_re (join #"|" (map escape_name l) ++ #"$") 0 0%Z pre [] = alternatives pre l.
Proof.
  induction 1 as [|n l L F IH]; intros pre; [reflexivity|].
  destruct l as [|m r].
  - cbn [map join alternatives]. rewrite split_feed by auto. pose proof (feed_split n pre []) as K. destruct (feed pre [] n) as [cur' a']. rewrite split_dollar, K. reflexivity.
  - change (join #"|" (map escape_name (n :: m :: r))) with (escape_name n ++ #"|" ++ join #"|" (map escape_name (m :: r))). rewrite <- !app_assoc.
    rewrite split_feed by auto. pose proof (feed_split n pre []) as K. destruct (feed pre [] n) as [cur' a'].
    change (#"|" ++ join #"|" (map escape_name (m :: r)) ++ #"$") with ("|"%char :: (join #"|" (map escape_name (m :: r)) ++ #"$")).
    change (alternatives pre (n :: m :: r)) with (alternative pre [] n :: alternatives [] (m :: r)).
    cbn [split_re]. cbn -[split_re alternatives alternative map join]. rewrite IH, K. cbn [app]. unfold alternative. rewrite seal_nil; [reflexivity|]. destruct (map escape_name (split "/"%char n)); discriminate.
Qed.
Lemma format_alternatives l : Forall (Forall literal) l -> split_re (format_run_names (Some l)) 0 0%Z [] [] = alternatives #"^" l.
Proof. intros F. unfold format_run_names. change (#"^" ++ ?x) with ("^"%char :: x). cbn [split_re]. cbn -[split_re alternatives map join]. now apply (split_names l F #"^"). Qed.

Definition pre_atoms (pre : bytes) : list atom := match pre with [] => [] | _ => [ABol] end.
Definition post_atoms (post : bytes) : list atom := match post with [] => [] | _ => [AEol] end.
Lemma atoms_name post n : post = [] \/ post = #"$" -> Forall literal n -> re_atoms (escape_name n ++ post) = Some (map ALit n ++ post_atoms post).
Proof.
  intros P. induction 1 as [|c n L F IH].
  - destruct P as [->| ->]; reflexivity.
  - unfold escape_name. cbn [flat_map map]. fold (escape_name n). rewrite <- app_assoc. unfold literal in L. destruct (escape_cases c) as [[X ->]|[X ->]]; cbn [app re_atoms].
    + assert (E : one_of c #"\.+*?()|[]{}^$" = true) by chars. rewrite Ascii.eqb_refl, E, IH. reflexivity.
    + assert (E1 : Ascii.eqb c "\"%char = false) by chars. assert (E2 : Ascii.eqb c "^"%char = false) by chars. assert (E3 : Ascii.eqb c "$"%char = false) by chars.
      assert (E4 : Ascii.eqb c "."%char = false) by chars. assert (E5 : one_of c #"+*?()|[]{}" = false) by chars. rewrite E1, E2, E3, E4, E5, IH. reflexivity.
Qed.
Lemma atoms_part pre post n : pre = [] \/ pre = #"^" -> post = [] \/ post = #"$" -> Forall literal n ->
  re_atoms (pre ++ escape_name n ++ post) = Some (pre_atoms pre ++ map ALit n ++ post_atoms post).
Proof. intros [->| ->] P F; [now apply atoms_name|]. change (#"^" ++ ?x) with ("^"%char :: x). cbn. rewrite atoms_name by auto. reflexivity. Qed.
Lemma mat_lits n : forall l st s, mat (map ALit n ++ l) st s <-> exists b, s = n ++ b /\ mat l (match n with [] => st | _ => false end) b.
Proof.
  induction n as [|c n IH]; intros l st s; cbn.
  - split; [intros M; exists s; auto|intros (b & -> & M); exact M].
  - destruct s as [|x s]; [split; [tauto|intros (b & H & _); discriminate H]|]. rewrite IH. split.
    + intros [-> (b & -> & M)]. exists b. split; auto. destruct n; auto.
    + intros (b & H & M). injection H as -> ->. split; auto. exists b. split; auto. destruct n; auto.
Qed.
(** What a part matches. *)
Lemma matches_part pre post n t : pre = [] \/ pre = #"^" -> post = [] \/ post = #"$" -> Forall literal n ->
  (matches (pre ++ escape_name n ++ post) t <-> exists a b, t = a ++ n ++ b /\ (pre <> [] -> a = []) /\ (post <> [] -> b = [])).
Proof.
  intros P Q F. unfold matches. rewrite atoms_part by auto. split.
  - intros (l & a & b & E & -> & M). injection E as <-.
    assert (M' : mat (map ALit n ++ post_atoms post) (match a with [] => true | _ => false end) b /\ (pre <> [] -> a = [])).
    { destruct P as [->| ->]; cbn in M; [split; [auto|tauto]|]. destruct M as [M1 M2]. split; auto. intros _. destruct a; [auto|discriminate]. }
    destruct M' as [M' A]. apply mat_lits in M' as (b' & -> & M'). exists a, b'. split; auto. split; auto.
    intros X. destruct Q as [->| ->]; [tauto|]. cbn in M'. tauto.
  - intros (a & b & -> & A & B). exists (pre_atoms pre ++ map ALit n ++ post_atoms post), a, (n ++ b). split; auto. split; auto.
    assert (M : mat (map ALit n ++ post_atoms post) (match a with [] => true | _ => false end) (n ++ b)).
    { apply mat_lits. exists b. split; auto. destruct Q as [->| ->]; cbn; auto. split; auto. apply B. discriminate. }
    destruct P as [->| ->]; cbn; auto. split; auto. rewrite A by discriminate. reflexivity.
Qed.
Lemma matches_self pre post n : pre = [] \/ pre = #"^" -> post = [] \/ post = #"$" -> Forall literal n -> matches (pre ++ escape_name n ++ post) n.
Proof. intros P Q F. apply matches_part; auto. exists [], []. rewrite app_nil_r. auto. Qed.
Lemma split_literals n : Forall literal n -> Forall (Forall literal) (split "/"%char n).
Proof.
  intros F. rewrite Forall_forall. intros x I. rewrite Forall_forall in F |- *. intros c J. apply F. clear F.
  revert x I J. induction n as [|d n IH]; cbn; intros x I J.
  - destruct I as [<-|[]]. destruct J.
  - unfold eqc in I. destruct (Ascii.eqb_spec d "/"%char); [destruct I as [<-|I]; [destruct J|right; eauto]|].
    destruct (split "/"%char n) as [|h t] eqn:E; [destruct I as [<-|[]]; destruct J as [->|[]]; auto|]. destruct I as [<-|I].
    + destruct J as [->|J]; [auto|]. right. apply (IH h); cbn; auto.
    + right. apply (IH x); cbn; auto.
Qed.
Lemma parts_self es : Forall (Forall literal) es -> forall pre post, pre = [] \/ pre = #"^" -> post = [] \/ post = #"$" ->
  forall k, parts_match (seal post (glue pre (map escape_name es))) (firstn k es).
Proof.
  induction 1 as [|e es F FF IH]; intros pre post P Q k; [destruct k; cbn; destruct (pre ++ post); exact I|].
  destruct k as [|k]; [cbn [firstn]; destruct (seal post (glue pre (map escape_name (e :: es)))); exact I|].
  cbn [map glue firstn]. destruct es as [|e' es].
  - cbn. rewrite <- app_assoc. split; [now apply matches_self|]. destruct k; exact I.
  - change (seal post ((pre ++ escape_name e) :: map escape_name (e' :: es))) with ((pre ++ escape_name e) :: seal post (map escape_name (e' :: es))).
    cbn [parts_match]. split; [|].
    + pose proof (matches_self pre [] e P (or_introl eq_refl) F) as M. now rewrite app_nil_r in M.
    + apply (IH [] post (or_introl eq_refl) Q k).
Qed.
Lemma in_alternatives l : forall pre n, In n l -> pre = [] \/ pre = #"^" -> exists pre' post, (pre' = [] \/ pre' = #"^") /\ (post = [] \/ post = #"$") /\ In (alternative pre' post n) (alternatives pre l).
Proof.
  induction l as [|x [|y r] IH]; intros pre n I P; [destruct I| |].
  - destruct I as [<-|[]]. exists pre, #"$". cbn. auto.
  - change (alternatives pre (x :: y :: r)) with (alternative pre [] x :: alternatives [] (y :: r)). destruct I as [<-|I].
    + exists pre, []. cbn [In]. auto.
    + destruct (IH [] n I (or_introl eq_refl)) as (p & q & A & B & C). exists p, q. cbn [In]. auto.
Qed.

(** ** C83 *)
(** Every test that is asked for is run, and so are the tests around it. *)
Theorem C83_all_chosen_tests_run_partial names n k : Forall (Forall literal) names -> In n names -> go_runs (format_run_names (Some names)) (firstn k (split "/"%char n)).
Proof.
  intros F I. unfold go_runs. rewrite format_alternatives by auto. destruct (in_alternatives names #"^" n I (or_intror eq_refl)) as (pre & post & P & Q & J).
  exists (alternative pre post n). split; auto. unfold alternative. apply parts_self; auto. apply split_literals. rewrite Forall_forall in F. now apply F.
Qed.
(** One test of the package is asked for: it alone is run, with all its subtests. *)
Theorem C83_single_test_alone_partial n t sub : top_level n -> (go_runs (format_run_names (Some [n])) (t :: sub) <-> t = n).
Proof.
  intros [F N]. unfold go_runs. rewrite format_alternatives by auto. cbn [alternatives In]. unfold alternative. rewrite split_noc by auto. cbn [map glue seal]. rewrite <- app_assoc. split.
  - intros (m & [<-|[]] & [M _]). apply matches_part in M as (a & b & -> & A & B); auto. rewrite A, B by discriminate. now rewrite app_nil_r.
  - intros ->. eexists. split; [left; reflexivity|]. split; [|exact I]. apply matches_self; auto.
Qed.
(** Several are asked for (a file): what is run.  First is anchored at its start only, last at its end only. *)
Theorem C83_several_tests first mid last t sub : top_level first -> Forall top_level mid -> top_level last ->
  (go_runs (format_run_names (Some (first :: mid ++ [last]))) (t :: sub) <->
   (exists r, t = first ++ r) \/ (exists n, In n mid /\ has_infix t n) \/ (exists a, t = a ++ last)).
Proof.
  intros [F N] FM [FL NL]. unfold go_runs. rewrite format_alternatives.
  2:{ constructor; auto. apply Forall_app. split; [|constructor; auto]. eapply Forall_impl; [|exact FM]. now intros ? []. }
  destruct (mid ++ [last]) as [|y r] eqn:E; [destruct mid; discriminate|].
  change (alternatives #"^" (first :: y :: r)) with (alternative #"^" [] first :: alternatives [] (y :: r)). rewrite <- E. clear E y r.
  assert (A1 : forall u, parts_match (alternative #"^" [] first) (u :: sub) <-> exists r, u = first ++ r).
  { intros u. unfold alternative. rewrite split_noc by auto. cbn [map glue seal]. rewrite <- app_assoc. cbn [parts_match]. rewrite matches_part by auto. split.
    - intros [(a & b & -> & A & _) _]. rewrite A by discriminate. now exists b.
    - intros (r & ->). split; [|exact I]. exists [], r. split; [auto|split; [auto|tauto]]. }
  assert (A2 : forall mid, Forall top_level mid -> ((exists m, In m (alternatives [] (mid ++ [last])) /\ parts_match m (t :: sub)) <-> (exists n, In n mid /\ has_infix t n) \/ (exists a, t = a ++ last))).
  { clear -FL NL. induction 1 as [|x mid [Fx Nx] FM IH].
    - cbn [alternatives app In]. unfold alternative. rewrite split_noc by auto. cbn [map glue seal app]. split.
      + intros (m & [<-|[]] & [M _]). apply (matches_part [] #"$") in M as (a & b & -> & _ & B); auto. right. exists a. rewrite B by discriminate. now rewrite app_nil_r.
      + intros [(n & [] & _)|(a & ->)]. eexists. split; [left; reflexivity|]. split; [|exact I]. apply (matches_part [] #"$"); auto. exists a, []. rewrite app_nil_r. repeat split; auto; tauto.
    - cbn [app]. destruct (mid ++ [last]) as [|y r] eqn:E; [destruct mid; discriminate|].
      change (alternatives [] (x :: y :: r)) with (alternative [] [] x :: alternatives [] (y :: r)).
      assert (Ax : parts_match (alternative [] [] x) (t :: sub) <-> has_infix t x).
      { unfold alternative. rewrite split_noc by auto. cbn [map glue seal app parts_match]. pose proof (matches_part [] [] x t (or_introl eq_refl) (or_introl eq_refl) Fx) as M. cbn [app] in M. rewrite M. split.
        - intros [(a & b & -> & _) _]. now exists a, b.
        - intros (a & b & ->). split; [|exact I]. exists a, b. repeat split; tauto. }
      split.
      + intros (m & [<-|J] & M).
        * left. exists x. split; [now left|now apply Ax].
        * destruct (proj1 IH (ex_intro _ m (conj J M))) as [(n & K & L)|K]; [left; exists n; split; auto; now right|auto].
      + intros [(n & [<-|K] & L)|K].
        * exists (alternative [] [] x). split; [now left|now apply Ax].
        * destruct (proj2 IH (or_introl (ex_intro _ n (conj K L)))) as (m & J & M). exists m. split; auto. now right.
        * destruct (proj2 IH (or_intror K)) as (m & J & M). exists m. split; auto. now right. }
  split.
  - intros (m & [<-|J] & M); [left; now apply A1|]. right. apply (A2 mid FM). eauto.
  - intros [H|H]; [exists (alternative #"^" [] first); split; [now left|now apply A1]|]. apply (A2 mid FM) in H as (m & J & M). exists m. split; auto. now right.
Qed.
(** So a file with TestA and TestB also runs TestAll and MyTestB of other files; a subtest also runs tests
    whose names begin alike; and a name with a dot or a parenthesis is no literal. *)
Definition tops (l : list string) : list bytes := map lit l.
Theorem C83_only_chosen_tests_run_refuted :
  (exists names t, Forall top_level names /\ ~ In t names /\ go_runs (format_run_names (Some names)) [t]) /\
  (exists n t, Forall literal n /\ Forall literal t /\ ~ In "/"%char t /\ In "/"%char n /\ ~ (exists r, n = t ++ #"/" ++ r) /\ go_runs (format_run_names (Some [n])) [t]) /\
  (exists n : bytes, ~ In "/"%char n /\ ~ go_runs (format_run_names (Some [n])) [n]).
Proof.
  assert (T : forall s : string, forallb (fun c => negb (one_of c #"\.+*?()^$") && negb (Ascii.eqb c "/"%char)) (lit s) = true -> top_level (lit s)).
  { intros s H. rewrite forallb_forall in H. split.
    - rewrite Forall_forall. intros c I. specialize (H c I). apply andb_prop in H as [H _]. now apply negb_true_iff in H.
    - intros I. specialize (H _ I). apply andb_prop in H as [_ H]. discriminate H. }
  split; [|split].
  - exists [#"TestA"; #"TestB"], #"TestAll". split; [repeat constructor; now apply T|]. split.
    + cbn. intros [H|[H|[]]]; discriminate H.
    + apply (C83_several_tests #"TestA" [] #"TestB"); try (now apply T); [constructor|]. left. now exists #"ll".
  - exists #"TestA/sub", #"TestAll". split; [repeat constructor|]. split; [repeat constructor|]. split; [cbn; intuition discriminate|]. split; [cbn; intuition|]. split.
    + intros (r & H). discriminate H.
    + unfold go_runs. rewrite format_alternatives by repeat constructor. eexists. split; [left; reflexivity|]. split; [|exact I].
      apply (matches_part #"^" [] #"TestA"); auto; [repeat constructor|]. exists [], #"ll". repeat split; tauto.
  - exists #"Test(x". split; [cbn; intuition discriminate|]. intros (m & J & M). cbn in J. destruct J as [<-|[]]. destruct M as [(l & a & b & E & _) _]. discriminate E.
Qed.
(** A file without tests: nothing is run. *)
Theorem C83_empty_file_runs_nothing t sub : t <> [] -> ~ go_runs (format_run_names (Some [])) (t :: sub).
Proof.
  intros N (m & [<-|[]] & [(l & a & b & E & -> & M) _]). cbn in E. injection E as <-. destruct M as [M1 [M2 _]]. destruct a; [|discriminate M1]. subst b. now apply N.
Qed.
(** *** A case: one test, and a name with a bracket. *)
Lemma top_level_by n : forallb (fun c => negb (one_of c #"\.+*?()^$") && negb (Ascii.eqb c "/"%char)) n = true -> top_level n.
Proof.
  intros H. rewrite forallb_forall in H. split.
  - rewrite Forall_forall. intros c I. specialize (H c I). apply andb_prop in H as [H _]. now apply negb_true_iff in H.
  - intros I. specialize (H _ I). apply andb_prop in H as [_ H]. discriminate H.
Qed.
Example run_names_example : top_level #"TestA" /\ top_level #"Test[1]" /\ format_run_names (Some [#"TestA"; #"Test[1]"]) = #"^TestA|Test\[1\]$" /\
  go_runs #"^TestA|Test\[1\]$" [#"Test[1]"; #"sub"] /\ ~ go_runs #"^TestA$" [#"TestAll"].
Proof.
  assert (A : top_level #"TestA") by now apply top_level_by. assert (B : top_level #"Test[1]") by now apply top_level_by.
  split; [exact A|]. split; [exact B|]. split; [reflexivity|]. split.
  - apply (C83_several_tests #"TestA" [] #"Test[1]"); auto. right. right. now exists [].
  - intros H. apply (C83_single_test_alone_partial #"TestA" #"TestAll" [] A) in H. discriminate H.
Qed.
