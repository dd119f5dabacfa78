(** * C92: the Go root kept in git, whatever interrupts its making *)
From Coq Require Import Ascii String List Arith Bool Lia.
From Verif Require Import M_Str P_Str M_Version M_Module M_GitGoroot.
Import ListNotations.
Open Scope nat_scope.
Open Scope list_scope.

(** ** Specification *)
(** The files a finished Go root has: those of the release, the ignore file, what make.bash built. *)
Definition expected (w : world) (p : bytes) : option bytes :=
  match w_built w p with
  | Some c => Some c
  | None => if eqs p #".gitignore" then Some (#".DS_Store" ++ ["010"%char]) else w_release w p
  end.
(** The Go root is finished: it has those files and no other, and is a repository on the
    branch of the version with a single commit, named after it. *)
Definition finished (w : world) (s : fs) : Prop :=
  exists t g snap, s_goroot s = Some t /\ (forall p, t_files t p = expected w p) /\
    t_repo t = Repo g /\ g_branch g = w_version w /\ g_commits g = [(#"init " ++ w_version w, snap)] /\ g_filemode g = false /\
    (forall p, p <> #".xgo-incomplete" -> snap p = expected w p).
(** No file of a release or of a build has the name of the marker. *)
Definition sane (w : world) : Prop := w_release w #".xgo-incomplete" = None /\ w_built w #".xgo-incomplete" = None.
Definition nothing : fs := Fs None None None.
(** The disk after any number of calls, each returned, failed or killed at any point. *)
Inductive after_calls (w : world) : fs -> Prop :=
| no_call : after_calls w nothing
| one_more s o s' : after_calls w s -> ensure w s o s' -> after_calls w s'.
(** The directory exists and has nothing in it. *)
Definition empty_goroot (s : fs) : Prop := exists t, s_goroot s = Some t /\ (forall p, t_files t p = None) /\ t_repo t = NoRepo.

(** ** Proofs *)
Lemma eqs_iff a b : eqs a b = true <-> a = b.
Proof. apply eqs_eq. Qed.
Definition hoare {A} (P : fs -> Prop) (p : prog A) (Q : A -> fs -> Prop) (C : fs -> Prop) : Prop :=
  forall s o s', P s -> p s o s' -> match o with Done a => Q a s' | _ => C s' end.
Lemma hoare_bind {A B} P (p : prog A) Q (q : A -> prog B) R C : hoare P p Q C -> (forall a, hoare (Q a) (q a) R C) -> hoare P (bind p q) R C.
Proof.
  intros Hp Hq s o s' H [(a & s1 & E1 & E2)|[[E ->]|[E ->]]].
  - exact (Hq a _ _ _ (Hp _ _ _ H E1) E2).
  - exact (Hp _ _ _ H E).
  - exact (Hp _ _ _ H E).
Qed.
Lemma hoare_finally P (p q : prog unit) Q C : hoare P p (fun _ => Q) C -> (forall s, Q s -> C s) ->
  hoare Q q (fun _ => Q) Q -> hoare C q (fun _ => C) C -> hoare P (finally p q) (fun _ => Q) C.
Proof.
  intros Hp QC H1 H2 s o s' H [[E ->]|(o1 & s1 & o2 & E1 & N & E2 & ->)]; [exact (Hp _ _ _ H E)|].
  specialize (Hp _ _ _ H E1). destruct o1; [|specialize (H2 _ _ _ Hp E2); destruct o2; exact H2|congruence].
  specialize (H1 _ _ _ Hp E2). destruct o2; auto.
Qed.
Lemma hoare_step (P : fs -> Prop) f (Q C : fs -> Prop) : (forall s, P s -> Q (f s)) -> (forall s, P s -> C s) -> hoare P (step f) (fun _ => Q) C.
Proof. intros H1 H2 s o s' H [[-> ->]|[[-> ->]|[-> ->]]]; auto. Qed.
Lemma hoare_long (P : fs -> Prop) (b f : fs -> fs -> Prop) (Q C : fs -> Prop) : (forall s s', P s -> f s s' -> Q s') -> (forall s s', P s -> b s s' -> C s') -> hoare P (long_step b f) (fun _ => Q) C.
Proof. intros H1 H2 s o s' H [[-> E]|[[-> E]|[-> E]]]; eauto. Qed.

Section Run.
Variable w : world.
Definition tmp_ok (s : fs) : Prop := forall t, s_tmp s = Some t -> forall p, t p <> None -> w_release w p <> None.
Definition marked (s : fs) : Prop := tmp_ok s /\ exists t, s_goroot s = Some t /\ t_files t marker <> None.
(** The Go root has exactly the files f and the repository r. *)
Definition is (f : files) (r : repo) (s : fs) : Prop := tmp_ok s /\ exists t, s_goroot s = Some t /\ (forall p, t_files t p = f p) /\ t_repo t = r.
Definition only_marker : files := put no_files marker [].
Lemma is_marked f r s : f marker <> None -> is f r s -> marked s.
Proof. intros M (T & t & E & F & _). split; auto. exists t. split; auto. now rewrite F. Qed.
Definition released : files := over (w_release w) only_marker.
Lemma over_marker g f : f marker <> None -> over g f marker <> None.
Proof. unfold over. destruct (g marker); congruence. Qed.
Lemma put_marker f p c : f marker <> None -> put f p c marker <> None.
Proof. unfold put. destruct (eqs marker p); congruence. Qed.
Lemma only_marker_marker : only_marker marker <> None.
Proof. discriminate. Qed.
Lemma tmp_ok_goroot s g : tmp_ok s -> tmp_ok (set_goroot s g).
Proof. auto. Qed.
Lemma partly_marker n f f' : partly n f f' -> f marker <> None -> f' marker <> None.
Proof. intros H. destruct (H marker) as [->|[]]; auto. Qed.

Definition with_tmp (x : fs -> Prop) : fs -> Prop := fun s => is only_marker NoRepo s /\ x s.
Lemma h_download : hoare (is only_marker NoRepo) (download_and_extract w) (fun _ => is released NoRepo) marked.
Proof.
  assert (MR : forall s, is released NoRepo s -> marked s) by (intros s; apply is_marked, over_marker, only_marker_marker).
  assert (MO : forall s, is only_marker NoRepo s -> marked s) by (intros s; apply is_marked, only_marker_marker).
  unfold download_and_extract.
  apply (hoare_bind _ _ (fun _ => fun s => is only_marker NoRepo s)).
  { apply hoare_long.
    - intros s s' H ->. exact H.
    - intros s s' H [x ->]. exact (MO _ H). }
  intros _. apply hoare_finally; auto.
  3:{ apply hoare_step; auto. }
  2:{ apply hoare_step; auto. }
  apply (hoare_bind _ _ (fun _ => fun s => is only_marker NoRepo s)).
  { apply hoare_step; auto. intros s (T & t & E). destruct (s_tmp s) eqn:X; [exact (conj T (ex_intro _ t E))|]. split; [|exists t; exact E].
    intros t' Y p N. injection Y as <-. now elim N. }
  intros _. apply hoare_finally; auto.
  - apply (hoare_bind _ _ (fun _ => fun s => is only_marker NoRepo s /\ exists t, s_tmp s = Some t /\ forall p, t p = w_release w p)).
    + intros s o s' H U. unfold untar in U. destruct H as (T & t & E & F & R).
      destruct (s_tmp s) as [tm|] eqn:X; [destruct (s_tar s) as [[]|] eqn:Y|]; try (destruct U as [[->| ->] ->]; apply MO; exact (conj T (ex_intro _ t (conj E (conj F R))))).
      destruct U as [[-> ->]|U].
      * split.
        -- split; [|exists t; exact (conj E (conj F R))]. intros t' Z p N. injection Z as <-. unfold over in N. destruct (w_release w p) eqn:Q; [congruence|]. now elim (T _ X _ N Q).
        -- exists (over (w_release w) tm). split; auto. intros p. unfold over. destruct (w_release w p) eqn:Q; auto. destruct (tm p) eqn:Z; auto. assert (N : tm p <> None) by congruence. now elim (T _ X _ N).
      * assert (M : marked s').
        { assert (B : exists t', partly (w_release w) tm t' /\ s' = set_tmp s (Some t')) by (destruct U as [[_ U]|[_ U]]; exact U). destruct B as (t' & B & ->).
          apply MO. split; [|exists t; exact (conj E (conj F R))]. intros t2 Z p N. injection Z as <-. destruct (B p) as [B1|[B1 _]]; auto. apply (T _ X). now rewrite <- B1. }
        destruct U as [[-> _]|[-> _]]; exact M.
    + intros _ s o s' ((T & t & E & F & R) & tm & X & G) U. unfold move_files in U. rewrite X, E in U. destruct U as [[-> ->]|U].
      * split.
        -- intros t2 Z p N. injection Z as <-. now elim N.
        -- eexists. split; [reflexivity|]. split; [|exact R]. intros p. cbn [t_files t_repo]. unfold released, over. rewrite G. destruct (w_release w p); auto.
      * assert (M : marked s').
        { assert (B : exists moved : bytes -> bool,
                   s' = Fs (Some (Tree (fun p => if moved p then over tm (t_files t) p else t_files t p) (t_repo t)))
                           (Some (fun p => if moved p then None else tm p)) (s_tar s)) by (destruct U as [[_ U]|[_ U]]; exact U).
          destruct B as (mv & ->). split.
          - intros t2 Z p N. injection Z as <-. destruct (mv p); [now elim N|]. exact (T _ X _ N).
          - eexists. split; [reflexivity|]. cbn [t_files t_repo]. assert (K : t_files t marker <> None) by (rewrite F; apply only_marker_marker). destruct (mv marker); auto. now apply over_marker. }
        destruct U as [[-> _]|[-> _]]; exact M.
  - apply hoare_long.
    + intros s s' (T & t & E) ->. split; [|exists t; exact E]. intros t2 Z. discriminate.
    + intros s s' (T & t & E) B. destruct (s_tmp s) as [tm|] eqn:X; [|subst; exact (conj T (ex_intro _ t E))]. destruct B as (t' & B & ->). split; [|exists t; exact E].
      intros t2 Z p N. injection Z as <-. destruct (B p) as [B1|B1]; [|congruence]. apply (T _ X). now rewrite <- B1.
  - apply hoare_long.
    + intros s s' (T & t & E) ->. split; [|exists t; exact E]. intros t2 Z. discriminate.
    + intros s s' (T & t & E) B. destruct (s_tmp s) as [tm|] eqn:X; [|subst; exact (conj T (ex_intro _ t E))]. destruct B as (t' & B & ->). split; [|exists t; exact E].
      intros t2 Z p N. injection Z as <-. destruct (B p) as [B1|B1]; [|congruence]. apply (T _ X). now rewrite <- B1.
Qed.

(** The Go root has the files f, and a repository with the given branch, index, commits and filemode. *)
Definition repo_is (f : files) (G : gitdir -> Prop) (s : fs) : Prop := tmp_ok s /\ exists t g, s_goroot s = Some t /\ (forall p, t_files t p = f p) /\ t_repo t = Repo g /\ G g.
Lemma repo_marked f G s : f marker <> None -> repo_is f G s -> marked s.
Proof. intros M (T & t & g & E & F & _). split; auto. exists t. split; auto. now rewrite F. Qed.
Lemma h_git f (G G' : gitdir -> Prop) h : f marker <> None -> (forall t g, (forall p, t_files t p = f p) -> G g -> G' (h t g)) -> hoare (repo_is f G) (git h) (fun _ => repo_is f G') marked.
Proof.
  intros M H s o s' (T & t & g & E & F & R & HG) U. unfold git in U. rewrite E, R in U. destruct U as [[-> ->]|U].
  - split; [exact T|]. eexists _, _. split; [reflexivity|]. split; [exact F|]. split; [reflexivity|]. now apply H.
  - assert (K : marked s').
    { assert (B : s' = s \/ (exists g', s' = set_goroot s (Some (Tree (t_files t) (Repo g')))) \/ s' = set_goroot s (Some (Tree (t_files t) Broken))) by (destruct U as [[_ U]|[_ U]]; exact U).
      destruct B as [->|[[g' ->]| ->]]; (split; [exact T|]); eexists; (split; [first [exact E|reflexivity]|]); cbn [t_files t_repo]; rewrite F; exact M. }
    destruct U as [[-> _]|[-> _]]; exact K.
Qed.
Definition ignored : files := put released #".gitignore" ignore_text.
Definition built : files := over (w_built w) ignored.
Definition same (f g : files) : Prop := forall p, f p = g p.
Definition one_commit (g : gitdir) : Prop := exists snap, same snap built /\ g_commits g = [(#"init " ++ w_version w, snap)].
Lemma h_init : hoare (is only_marker NoRepo) (init_git_goroot w) (fun _ => repo_is built (fun g => g_branch g = w_version w /\ one_commit g /\ g_filemode g = false)) marked.
Proof.
  assert (M1 : released marker <> None) by (apply over_marker, only_marker_marker).
  assert (M2 : ignored marker <> None) by (now apply put_marker).
  assert (M3 : built marker <> None) by (now apply over_marker).
  unfold init_git_goroot. apply (hoare_bind _ _ (fun _ => is released NoRepo)); [exact h_download|]. intros _.
  apply (hoare_bind _ _ (fun _ => repo_is released (fun g => g_commits g = []))).
  { intros s o s' (T & t & E & F & R) U. unfold git_init in U. rewrite E in U. destruct t as [tf tr]. cbn [t_files t_repo] in R, F. subst tr. destruct U as [[-> ->]|U].
    - split; [exact T|]. eexists _, _. split; [reflexivity|]. split; [exact F|]. split; reflexivity.
    - assert (K : marked s').
      { assert (B : s' = s \/ s' = set_goroot s (Some (Tree tf Broken))) by (destruct U as [[_ U]|[_ U]]; exact U).
        destruct B as [-> | ->]; (split; [exact T|]); eexists; (split; [first [exact E|reflexivity]|]); cbn [t_files t_repo]; now rewrite F. }
      destruct U as [[-> _]|[-> _]]; exact K. }
  intros _. apply (hoare_bind _ _ (fun _ => repo_is ignored (fun g => g_commits g = []))).
  { intros s o s' H U. pose proof (repo_marked _ _ _ M1 H) as K. destruct H as (T & t & g & E & F & R & HG). unfold write_file in U. rewrite E in U.
    destruct U as [[-> ->]|[[-> ->]|[-> ->]]]; try exact K. unfold on_files. rewrite E. split; [exact T|]. eexists _, g. split; [reflexivity|]. split; [|split; [exact R|exact HG]].
    intros p. cbn [t_files t_repo]. unfold ignored, put. now rewrite F. }
  intros _. apply (hoare_bind _ _ (fun _ => repo_is built (fun g => g_commits g = []))).
  { intros s o s' (T & t & g & E & F & R & HG) U. unfold make_bash in U. rewrite E in U. destruct U as [[-> ->]|U].
    - split; [exact T|]. eexists _, g. split; [reflexivity|]. split; [|split; [exact R|exact HG]]. intros p. cbn [t_files t_repo]. unfold built, over. now rewrite F.
    - assert (K : marked s').
      { assert (B : exists f', partly (w_built w) (t_files t) f' /\ s' = set_goroot s (Some (Tree f' (t_repo t)))) by (destruct U as [[_ U]|[_ U]]; exact U).
        destruct B as (f' & B & ->). split; [exact T|]. eexists. split; [reflexivity|]. cbn [t_files t_repo]. apply (partly_marker _ _ _ B). now rewrite F. }
      destruct U as [[-> _]|[-> _]]; exact K. }
  intros _. apply (hoare_bind _ _ (fun _ => repo_is built (fun g => g_commits g = [] /\ same (g_index g) built))).
  { apply h_git; auto. }
  intros _. apply (hoare_bind _ _ (fun _ => repo_is built one_commit)).
  { apply h_git; auto. intros t g _ [-> S]. exists (g_index g). split; [exact S|reflexivity]. }
  intros _. apply (hoare_bind _ _ (fun _ => repo_is built (fun g => g_branch g = w_version w /\ one_commit g))).
  { apply h_git; auto. }
  intros _. apply h_git; auto. intros t g _ [B O]. exact (conj B (conj O eq_refl)).
Qed.

Hypothesis sane_w : sane w.
Lemma built_expected p : p <> marker -> built p = expected w p.
Proof.
  intros N. unfold built, expected, over at 1. destruct (w_built w p); auto. unfold ignored, put at 1. destruct (eqs p #".gitignore"); auto.
  unfold released, over. destruct (w_release w p); auto. unfold only_marker, put. destruct (eqs p marker) eqn:X; auto. now apply eqs_eq in X.
Qed.
Lemma expected_marker : expected w marker = None.
Proof. destruct sane_w as [A B]. unfold expected. change marker with #".xgo-incomplete". rewrite B. exact A. Qed.
(** What a call can leave, when the marker is removed last. *)
Definition good (s : fs) : Prop := tmp_ok s /\ (s_goroot s = None \/ marked s \/ finished w s \/ empty_goroot s).
Lemma finished_no_marker s : finished w s -> has_file s marker = false.
Proof. intros (t & g & sn & E & F & _). unfold has_file. rewrite E, F, expected_marker. reflexivity. Qed.
Lemma empty_no_marker s : empty_goroot s -> has_file s marker = false.
Proof. intros (t & E & F & _). unfold has_file. rewrite E, F. reflexivity. Qed.
Lemma marked_has s : marked s -> has_file s marker = true.
Proof. intros (_ & t & E & F). unfold has_file. rewrite E. destruct (t_files t marker); congruence. Qed.
Lemma ask_done {A} (f : gitdir -> option A) s g o s' t : s_goroot s = Some t -> t_repo t = Repo g -> f g <> None -> ask_repo f s o s' -> s' = s /\ (exists a, f g = Some a /\ o = Done a \/ o = Crash).
Proof.
  intros E R N [-> H]. split; auto. destruct (f g) as [a|] eqn:X; [|congruence]. exists a. rewrite E, R, X in H. destruct H as [(a' & H & ->)|[[H _]|H]]; auto.
  - injection H as ->. auto.
  - discriminate.
Qed.
Lemma valid_finished s o s' : finished w s -> is_valid w s o s' -> s' = s /\ (o = Done true \/ o = Crash).
Proof.
  intros H. pose proof (finished_no_marker s H) as N. destruct H as (t & g & sn & E & F & R & B & CM & FM & SN). intros [(s0 & s1 & [X ->] & U)|[[[]]|[[]]]]; try congruence.
  injection X as <-. rewrite N in U. destruct U as [(br & s1 & U1 & U)|[[U1 ->]|[U1 ->]]].
  2:{ apply (ask_done _ _ g _ _ t) in U1; auto; [|discriminate]. destruct U1 as (_ & a & [[_ K]|K]); discriminate. }
  2:{ apply (ask_done _ _ g _ _ t) in U1; auto; [|discriminate]. tauto. }
  apply (ask_done _ _ g _ _ t) in U1; auto; [|discriminate]. destruct U1 as (-> & a & [[K1 K]|K]); [|discriminate]. injection K as <-. injection K1 as <-. rewrite B, eqs_refl in U. cbn [negb] in U.
  destruct U as [(n & s1 & U1 & U)|[[U1 ->]|[U1 ->]]].
  2:{ apply (ask_done _ _ g _ _ t) in U1; auto; [|rewrite CM; discriminate]. destruct U1 as (_ & a & [[_ K]|K]); discriminate. }
  2:{ apply (ask_done _ _ g _ _ t) in U1; auto; [|rewrite CM; discriminate]. tauto. }
  apply (ask_done _ _ g _ _ t) in U1; auto; [|rewrite CM; discriminate]. destruct U1 as (-> & a & [[K1 K]|K]); [|discriminate]. injection K as <-. rewrite CM in K1. injection K1 as <-. cbn [length Nat.eqb negb] in U.
  destruct U as [(m & s1 & U1 & U)|[[U1 ->]|[U1 ->]]].
  2:{ apply (ask_done _ _ g _ _ t) in U1; auto; [|rewrite CM; discriminate]. destruct U1 as (_ & a & [[_ K]|K]); discriminate. }
  2:{ apply (ask_done _ _ g _ _ t) in U1; auto; [|rewrite CM; discriminate]. tauto. }
  apply (ask_done _ _ g _ _ t) in U1; auto; [|rewrite CM; discriminate]. destruct U1 as (-> & a & [[K1 K]|K]); [|discriminate]. injection K as <-. rewrite CM in K1. injection K1 as <-.
  destruct U as [-> ->]. cbn [fst]. rewrite eqs_refl. auto.
Qed.
Lemma valid_empty s o s' : empty_goroot s -> is_valid w s o s' -> s' = s /\ (o = Fail \/ o = Crash).
Proof.
  intros H. pose proof (empty_no_marker s H) as N. destruct H as (t & E & F & R). intros [(s0 & s1 & [X ->] & U)|[[[]]|[[]]]]; try congruence.
  injection X as <-. rewrite N in U. destruct U as [(br & s1 & [-> U1] & U)|[[[-> U1] ->]|[[-> U1] ->]]]; auto.
  exfalso. rewrite E, R in U1. destruct U1 as [(a & U1 & _)|[[_ U1]|U1]]; discriminate.
Qed.

Lemma h_make : hoare (fun s => tmp_ok s /\ s_goroot s = None)
  (or_else (write_file marker []) (mkdir_goroot >> write_file marker [])) (fun _ => is only_marker NoRepo) (fun s => tmp_ok s /\ (s_goroot s = None \/ empty_goroot s)).
Proof.
  intros s o s' [T E] [[U N]|(s1 & U & U2)]; unfold write_file in U; rewrite E in U; destruct U as [U ->].
  - destruct U as [->| ->]; [congruence|]. split; auto.
  - destruct U2 as [([] & s2 & U2 & U3)|[[U2 ->]|[U2 ->]]].
    + unfold mkdir_goroot, step in U2. rewrite E in U2. destruct U2 as [[_ ->]|[[K _]|[K _]]]; try discriminate.
      cbn in U3. destruct U3 as [[-> ->]|[[-> ->]|[-> ->]]].
      * split; [exact T|]. eexists. split; [reflexivity|]. split; auto.
      * split; [exact T|]. right. eexists. split; [reflexivity|]. auto.
      * split; [exact T|]. right. eexists. split; [reflexivity|]. auto.
    + unfold mkdir_goroot in U2. destruct U2 as [[K _]|[[_ ->]|[K _]]]; try discriminate. auto.
    + unfold mkdir_goroot in U2. destruct U2 as [[K _]|[[K _]|[_ ->]]]; try discriminate. auto.
Qed.
Hypothesis last : w_marker_last w = true.
Lemma h_remove : hoare marked (remove_goroot w) (fun _ => fun s => tmp_ok s /\ s_goroot s = None) good.
Proof.
  apply hoare_long.
  - intros s s' [T _] ->. split; [exact T|reflexivity].
  - intros s s' (T & t & E & M) B. rewrite E in B. destruct B as (t' & (B1 & B2 & B3) & ->). split; [exact T|].
    destruct (B3 last) as [B|[B4 B5]].
    + right. left. split; [exact T|]. exists t'. split; [reflexivity|]. now rewrite B.
    + do 3 right. exists t'. auto.
Qed.
Lemma marked_good s : marked s -> good s.
Proof. intros M. split; [apply M|auto]. Qed.
Lemma h_build : hoare (is only_marker NoRepo) (on_failure (init_git_goroot w) (remove_goroot w) >> step (fun s => on_files s (fun f => del f marker)))
  (fun _ => fun s => tmp_ok s /\ finished w s) good.
Proof.
  apply (hoare_bind _ _ (fun _ => repo_is built (fun g => g_branch g = w_version w /\ one_commit g /\ g_filemode g = false))).
  - intros s o s' H [[U N]|(s1 & o1 & U1 & U2 & ->)].
    + pose proof (h_init _ _ _ H U) as K. destruct o as [[]| |]; [exact K|congruence|]. apply marked_good, K.
    + pose proof (h_init _ _ _ H U1) as K. pose proof (h_remove _ _ _ K U2) as K2. destruct o1; auto. destruct K2. split; auto.
  - intros []. apply hoare_step.
    + intros s (T & t & g & E & F & R & B & (snap & S & C) & FM). unfold on_files. rewrite E. split; [exact T|]. eexists _, g, snap.
      split; [reflexivity|]. split; [|split; [exact R|split; [exact B|split; [exact C|split; [exact FM|]]]]].
      * intros p. cbn [t_files t_repo]. unfold del. destruct (eqs p marker) eqn:X; [apply eqs_eq in X; subst; now rewrite expected_marker|]. rewrite F. apply built_expected. now apply P_Str.eqs_false.
      * intros p N. rewrite S. apply built_expected. exact N.
    + intros s H. apply marked_good. apply (repo_marked _ _ _ ltac:(apply over_marker, put_marker, over_marker, only_marker_marker) H).
Qed.
Lemma h_ensure : hoare good (ensure w) (fun _ => fun s => tmp_ok s /\ finished w s) good.
Proof.
  unfold ensure. apply (hoare_bind _ _ (fun _ => fun s => tmp_ok s /\ (s_goroot s = None \/ finished w s \/ empty_goroot s))).
  - intros s o s' G [(s0 & s1 & [X ->] & U)|[[[K _] _]|[[K _] _]]]; try discriminate. injection X as ->.
    destruct (s_goroot s) as [t|] eqn:E.
    + destruct (has_file s marker) eqn:M.
      * assert (K : marked s) by (destruct G as (T & [G|[G|[G|G]]]); [congruence|exact G|rewrite (finished_no_marker s G) in M; discriminate|rewrite (empty_no_marker s G) in M; discriminate]).
        pose proof (h_remove _ _ _ K U) as R. destruct o; auto. destruct R. auto.
      * destruct U as [-> ->]. destruct G as (T & [G|[G|[G|G]]]); [congruence|rewrite (marked_has s G) in M; discriminate| |]; auto.
    + destruct U as [-> ->]. split; [apply G|auto].
  - intros []. intros s o s' [T G] [(s0 & s1 & [X ->] & U)|[[[K _] _]|[[K _] _]]]; try discriminate. injection X as ->.
    destruct (s_goroot s) as [t|] eqn:E.
    + destruct G as [G|[G|G]]; [congruence| |].
      * destruct U as [(b & s1 & U1 & U)|[[U1 ->]|[U1 ->]]]; apply valid_finished in U1; auto; destruct U1 as [-> [K|K]]; try discriminate.
        -- injection K as ->. destruct U as [-> ->]. split; auto.
        -- split; auto.
      * destruct U as [(b & s1 & U1 & U)|[[U1 ->]|[U1 ->]]]; apply valid_empty in U1; auto; destruct U1 as [-> [K|K]]; try discriminate; (split; auto).
    + clear G. assert (P : tmp_ok s /\ s_goroot s = None) by auto. revert P U. clear T E. revert s o s'. refine (hoare_bind _ _ _ _ _ _ _ (fun _ => h_build)).
      intros s o s' H U. pose proof (h_make _ _ _ H U) as K. destruct o as [[]| |]; auto.
      * destruct K as [T [K|K]]; split; auto.
      * destruct K as [T [K|K]]; split; auto.
Qed.
Lemma reach_good s : after_calls w s -> good s.
Proof.
  induction 1 as [|s o s' H IH U].
  - split; [intros t X; discriminate|left; reflexivity].
  - pose proof (h_ensure _ _ _ IH U) as K. destruct o; auto. destruct K. split; auto.
Qed.
End Run.

(** ** A run that nothing disturbs *)
Lemma do_bind {A B} (p : prog A) (q : A -> prog B) s a s1 o s' : p s (Done a) s1 -> q a s1 o s' -> bind p q s o s'.
Proof. intros H1 H2. left. exists a, s1. auto. Qed.
Lemma do_finally (p q : prog unit) s s1 s' : p s (Done tt) s1 -> q s1 (Done tt) s' -> finally p q s (Done tt) s'.
Proof. intros H1 H2. right. exists (Done tt), s1, (Done tt). repeat split; auto. discriminate. Qed.
Definition built_tree (w : world) (f : files) : tree :=
  let f := over (w_built w) (put f #".gitignore" ignore_text) in
  Tree f (Repo (Git (w_version w) f [(#"init " ++ w_version w, f)] false)).
Lemma do_init w s f : s_goroot s = Some (Tree f NoRepo) -> exists f', init_git_goroot w s (Done tt) (Fs (Some (built_tree w f')) None None) /\ f' = over (over (w_release w) (match s_tmp s with Some t => t | None => no_files end)) f.
Proof.
  intros E. destruct s as [g tm tr]. cbn in E. subst g. set (t0 := match tm with Some t => t | None => no_files end).
  exists (over (over (w_release w) t0) f). split; [|reflexivity]. unfold init_git_goroot.
  apply (do_bind _ _ _ tt (Fs (Some (Tree (over (over (w_release w) t0) f) NoRepo)) None None)).
  { unfold download_and_extract. apply (do_bind _ _ _ tt (Fs (Some (Tree f NoRepo)) tm (Some true))); [left; auto|].
    apply (do_finally _ _ _ (Fs (Some (Tree (over (over (w_release w) t0) f) NoRepo)) None (Some true))); [|left; auto].
    apply (do_bind _ _ _ tt (Fs (Some (Tree f NoRepo)) (Some t0) (Some true))).
    { left. split; auto. subst t0. destruct tm; reflexivity. }
    apply (do_finally _ _ _ (Fs (Some (Tree (over (over (w_release w) t0) f) NoRepo)) (Some no_files) (Some true))); [|left; auto].
    apply (do_bind _ _ _ tt (Fs (Some (Tree f NoRepo)) (Some (over (w_release w) t0)) (Some true))); left; auto. }
  eapply do_bind; [left; split; reflexivity|]. eapply do_bind; [left; split; reflexivity|]. eapply do_bind; [left; split; reflexivity|].
  eapply do_bind; [left; split; reflexivity|]. eapply do_bind; [left; split; reflexivity|]. eapply do_bind; [left; split; reflexivity|].
  left. split; reflexivity.
Qed.
(** The call up to the removal of the marker. *)
Definition before_end (w : world) (s : fs) : Prop := exists f, f marker <> None /\ s = Fs (Some (built_tree w f)) None None.
Lemma do_ensure w s : s_goroot s = None \/ has_file s marker = true -> exists s1, before_end w s1 /\
  ensure w s (Done tt) (on_files s1 (fun f => del f marker)) /\ ensure w s Crash s1.
Proof.
  intros H. assert (K : exists s1, s_goroot s1 = None /\ bind get (fun s => match s_goroot s with Some _ => if has_file s marker then remove_goroot w else ret tt | None => ret tt end) s (Done tt) s1).
  { destruct (s_goroot s) as [t|] eqn:E.
    - destruct H as [H|H]; [congruence|]. exists (set_goroot s None). split; auto. apply (do_bind _ _ _ s s); [split; auto|]. cbv beta. rewrite E, H. left. auto.
    - exists s. split; auto. apply (do_bind _ _ _ s s); [split; auto|]. cbv beta. rewrite E. split; auto. }
  destruct K as (s1 & E1 & K).
  set (s2 := set_goroot s1 (Some (Tree only_marker NoRepo))). destruct (do_init w s2 only_marker eq_refl) as (f & D & Hf).
  exists (Fs (Some (built_tree w f)) None None). split; [exists f; split; auto; subst f; apply over_marker, only_marker_marker|].
  assert (R : forall o s', bind (on_failure (init_git_goroot w) (remove_goroot w)) (fun _ => step (fun s => on_files s (fun f => del f marker))) s2 o s' -> ensure w s o s').
  { intros o s' R. apply (do_bind _ _ _ tt s1); auto. apply (do_bind _ _ _ s1 s1); [split; auto|]. cbv beta. rewrite E1. apply (do_bind _ _ _ tt s2); auto.
    right. exists s1. split; [unfold write_file; rewrite E1; auto|]. apply (do_bind _ _ _ tt (set_goroot s1 (Some (Tree no_files NoRepo)))).
    - left. rewrite E1. auto.
    - left. split; reflexivity. }
  split; apply R; (eapply do_bind; [left; split; [exact D|discriminate]|]).
  - left. auto.
  - right. right. auto.
Qed.
Lemma valid_by_git w s t g snap : s_goroot s = Some t -> t_repo t = Repo g -> t_files t marker = None -> g_branch g = w_version w -> g_commits g = [(#"init " ++ w_version w, snap)] -> ensure w s (Done tt) s.
Proof.
  intros E R N B C. assert (M : has_file s marker = false) by (unfold has_file; now rewrite E, N).
  apply (do_bind _ _ _ tt s). { apply (do_bind _ _ _ s s); [split; auto|]. cbv beta. rewrite E, M. split; auto. }
  apply (do_bind _ _ _ s s); [split; auto|]. cbv beta. rewrite E. apply (do_bind _ _ _ true s); [|split; auto].
  assert (Q : forall A (f : gitdir -> option A) a, f g = Some a -> ask_repo f s (Done a) s).
  { intros A f a H. split; auto. left. exists a. rewrite E, R. auto. }
  apply (do_bind _ _ _ s s); [split; auto|]. cbv beta. rewrite M.
  apply (do_bind _ _ _ (w_version w) s); [apply Q; now rewrite B|]. cbv beta. rewrite eqs_refl. cbn [negb].
  apply (do_bind _ _ _ 1 s); [apply Q; now rewrite C|]. cbv beta. cbn [Nat.eqb negb].
  apply (do_bind _ _ _ (#"init " ++ w_version w) s); [apply Q; now rewrite C|]. cbv beta. rewrite eqs_refl. split; auto.
Qed.

(** ** C92 *)
(** A Go root that is returned is finished, after any history of calls that were killed or
    failed anywhere, where removing the directory removes the marker last. What is missing:
    the operating system need not remove it last, see below. *)
Theorem C92_returned_is_finished_partial w s s' : sane w -> w_marker_last w = true -> after_calls w s -> ensure w s (Done tt) s' -> finished w s'.
Proof. intros S L R U. exact (proj2 (h_ensure w S L _ _ _ (reach_good w S L s R) U)). Qed.
(** Otherwise, in every world, there are three calls - one killed before it removes the
    marker, one killed while it removes the directory, one that returns - after which the
    returned Go root has no files at all. *)
Theorem C92_returned_is_finished_refuted w : w_marker_last w = false ->
  exists s1 s2, after_calls w s1 /\ ensure w s1 Crash s2 /\ ensure w s2 (Done tt) s2 /\
    exists t, s_goroot s2 = Some t /\ forall p, t_files t p = None.
Proof.
  intros L. destruct (do_ensure w nothing (or_introl eq_refl)) as (s1 & (f & M & ->) & _ & C).
  set (s1 := Fs (Some (built_tree w f)) None None) in *.
  set (s2 := set_goroot s1 (Some (Tree no_files (t_repo (built_tree w f))))). exists s1, s2.
  split; [exact (one_more w _ _ _ (no_call w) C)|]. split; [|split].
  - right. right. split; auto. apply (do_bind _ _ _ s1 s1); [split; auto|]. cbv beta.
    assert (H : has_file s1 marker = true).
    { pose proof (over_marker (w_built w) _ (put_marker _ #".gitignore" ignore_text M)) as K. unfold has_file, s1, built_tree. cbn [s_goroot t_files]. destruct (over (w_built w) _ marker); congruence. }
    rewrite H. cbn [s_goroot s1]. right. right. split; auto. cbn [s_goroot s1]. exists (Tree no_files (t_repo (built_tree w f))). split; auto. split; [|split].
    + intros p. right. reflexivity.
    + left. reflexivity.
    + congruence.
  - eapply (valid_by_git w s2); try reflexivity.
  - eexists. split; reflexivity.
Qed.
(** A finished Go root is returned as it is. *)
Theorem C92_finished_is_reused w s o s' : sane w -> finished w s -> ensure w s o s' -> s' = s /\ (o = Done tt \/ o = Crash).
Proof.
  intros S F. pose proof (finished_no_marker w S s F) as N. assert (E : exists t, s_goroot s = Some t) by (destruct F as (t & g & sn & E & _); eauto). destruct E as [t E].
  intros [([] & s1 & U1 & U)|[[U1 ->]|[U1 ->]]].
  - destruct U1 as [(s0 & s2 & [X ->] & U1)|[[[K _] _]|[[K _] _]]]; try discriminate. injection X as ->. rewrite E, N in U1. destruct U1 as [_ ->].
    destruct U as [(s0 & s2 & [X ->] & U1)|[[[K _] _]|[[K _] _]]]; try discriminate. injection X as ->. rewrite E in U1.
    destruct U1 as [(b & s1 & U1 & U)|[[U1 ->]|[U1 ->]]]; apply (valid_finished w S) in U1; auto; destruct U1 as [-> [K|K]]; try discriminate; auto.
    injection K as ->. destruct U as [-> ->]. auto.
  - destruct U1 as [(s0 & s2 & [X ->] & U1)|[[[K _] _]|[[K _] _]]]; try discriminate. injection X as ->. rewrite E, N in U1. destruct U1 as [K _]. discriminate.
  - destruct U1 as [(s0 & s2 & [X ->] & U1)|[[[K _] _]|[[K _] _]]]; try discriminate. injection X as ->. rewrite E, N in U1. destruct U1 as [K _]. discriminate.
Qed.
(** A directory that is there already, however it came about, is only handed out if it is a
    repository on the branch of the version with one commit, named after it. *)
Theorem C92_existing_is_checked w s t g s' : s_goroot s = Some t -> t_files t #".xgo-incomplete" = None -> t_repo t = Repo g -> ensure w s (Done tt) s' ->
  s' = s /\ g_branch g = w_version w /\ exists snap, g_commits g = [(#"init " ++ w_version w, snap)].
Proof.
  intros E M R [([] & s1 & U1 & U)|[[_ K]|[_ K]]]; try discriminate.
  assert (N : has_file s marker = false) by (unfold has_file; rewrite E; change marker with #".xgo-incomplete"; now rewrite M).
  destruct U1 as [(s0 & s2 & [X ->] & U1)|[[[K _] _]|[[K _] _]]]; try discriminate. injection X as ->. rewrite E, N in U1. destruct U1 as [_ ->].
  destruct U as [(s0 & s2 & [X ->] & U1)|[[[K _] _]|[[K _] _]]]; try discriminate. injection X as ->. rewrite E in U1.
  destruct U1 as [(b & s1 & U1 & U)|[[_ K]|[_ K]]]; try discriminate. destruct b; [|destruct U; discriminate]. destruct U as [_ ->].
  assert (Q : forall A (f : gitdir -> option A) a s2, ask_repo f s (Done a) s2 -> s2 = s /\ f g = Some a).
  { intros A f a s2 [-> H]. split; auto. rewrite E, R in H. destruct H as [(a' & H & X)|[[_ X]|X]]; try discriminate. congruence. }
  destruct U1 as [(s0 & s2 & [X ->] & U1)|[[[K _] _]|[[K _] _]]]; try discriminate. injection X as ->. rewrite N in U1.
  destruct U1 as [(br & s2 & U1 & U)|[[_ K]|[_ K]]]; try discriminate. apply Q in U1 as [-> U1]. injection U1 as U1.
  destruct (eqs br (w_version w)) eqn:B; cbn [negb] in U; [|destruct U; discriminate]. apply eqs_eq in B.
  destruct U as [(n & s2 & U2 & U)|[[_ K]|[_ K]]]; try discriminate. apply Q in U2 as [-> U2].
  destruct (n =? 1) eqn:C; cbn [negb] in U; [|destruct U; discriminate]. apply Nat.eqb_eq in C. subst n.
  destruct U as [(m & s2 & U3 & U)|[[_ K]|[_ K]]]; try discriminate. apply Q in U3 as [-> U3]. destruct U as [U ->]. injection U as U.
  split; auto. split; [congruence|]. destruct (g_commits g) as [|[m' sn] [|]]; try discriminate. cbn [fst] in U3. injection U3 as ->. symmetry in U. apply eqs_eq in U. subst m. eauto.
Qed.
(** Whatever stopped the earlier calls, another call can succeed, unless they left an empty
    directory. *)
Theorem C92_can_be_repeated_partial w s : sane w -> w_marker_last w = true -> after_calls w s -> ~ empty_goroot s -> exists s', ensure w s (Done tt) s'.
Proof.
  intros S L R N. destruct (reach_good w S L s R) as (T & [G|[G|[G|G]]]); [| | |contradiction].
  - destruct (do_ensure w s (or_introl G)) as (s1 & _ & D & _). eauto.
  - destruct (do_ensure w s (or_intror (marked_has w s G))) as (s1 & _ & D & _). eauto.
  - pose proof (finished_no_marker w S s G) as M. destruct G as (t & g & sn & E & F & Rp & B & C & _). exists s. apply (valid_by_git w s t g sn); auto. rewrite F. now apply expected_marker.
Qed.
(** An empty directory - what a call leaves when it is killed after it has created the
    directory and before it writes the marker - stays: every later call fails. *)
Theorem C92_can_be_repeated_refuted w :
  (exists s, after_calls w s /\ empty_goroot s) /\
  (forall s, empty_goroot s -> forall o s', ensure w s o s' -> s' = s /\ o <> Done tt).
Proof.
  split.
  - set (s := set_goroot nothing (Some (Tree no_files NoRepo))). exists s. split; [|eexists; split; [reflexivity|split; reflexivity]].
    apply (one_more w nothing Crash s (no_call w)). apply (do_bind _ _ _ tt nothing); [apply (do_bind _ _ _ nothing nothing); split; auto|].
    apply (do_bind _ _ _ nothing nothing); [split; auto|]. cbn [s_goroot nothing]. right. right. split; auto. right. exists nothing. split; [split; auto|].
    apply (do_bind _ _ _ tt s); [left; auto|]. right. right. auto.
  - intros s F o s'. pose proof (empty_no_marker s F) as N. assert (E : exists t, s_goroot s = Some t) by (destruct F as (t & E & _); eauto). destruct E as [t E].
    intros [([] & s1 & U1 & U)|[[U1 ->]|[U1 ->]]].
    + destruct U1 as [(s0 & s2 & [X ->] & U1)|[[[K _] _]|[[K _] _]]]; try discriminate. injection X as ->. rewrite E, N in U1. destruct U1 as [_ ->].
      destruct U as [(s0 & s2 & [X ->] & U1)|[[[K _] _]|[[K _] _]]]; try discriminate. injection X as ->. rewrite E in U1.
      destruct U1 as [(b & s1 & U1 & U)|[[U1 ->]|[U1 ->]]]; apply (valid_empty w) in U1; auto; destruct U1 as [-> [K|K]]; try discriminate; split; auto; discriminate.
    + destruct U1 as [(s0 & s2 & [X ->] & U1)|[[[K _] _]|[[K _] _]]]; try discriminate. injection X as ->. rewrite E, N in U1. destruct U1 as [K _]. discriminate.
    + destruct U1 as [(s0 & s2 & [X ->] & U1)|[[[K _] _]|[[K _] _]]]; try discriminate. injection X as ->. rewrite E, N in U1. destruct U1 as [K _]. discriminate.
Qed.
(** A worktree of a finished Go root has the files of the Go root. What is missing: the
    marker was there when the commit was made. *)
Theorem C92_worktree_partial w s : finished w s -> exists t f, s_goroot s = Some t /\ worktree_files s = Some f /\ forall p, p <> #".xgo-incomplete" -> f p = t_files t p.
Proof.
  intros (t & g & sn & E & F & R & B & C & _ & SN). exists t, sn. split; auto. split; [unfold worktree_files; now rewrite E, R, C|]. intros p N. rewrite F. auto.
Qed.
(** So a worktree has the file that says that it is incomplete, and the Go root misses a
    file of its commit: this is what a first call gives, in every world. *)
Theorem C92_worktree_refuted w : exists s t f, ensure w nothing (Done tt) s /\ s_goroot s = Some t /\ worktree_files s = Some f /\
  f #".xgo-incomplete" <> None /\ t_files t #".xgo-incomplete" = None.
Proof.
  destruct (do_ensure w nothing (or_introl eq_refl)) as (s1 & (f & M & ->) & D & _). eexists _, _, _. split; [exact D|]. split; [reflexivity|]. split; [reflexivity|]. split.
  - exact (over_marker (w_built w) _ (put_marker _ #".gitignore" ignore_text M)).
  - reflexivity.
Qed.

(** ** The hypotheses hold of a world with a source and a build; its first call can return, or be killed half way, and then be repeated *)
Definition small_world : world := World (put no_files #"src" #"package main") (put no_files #"bin" #"go") #"master" #"go1.21.0" true.
Example C92_world : sane small_world /\ w_marker_last small_world = true.
Proof. repeat split. Qed.
Example C92_returns : exists s, ensure small_world nothing (Done tt) s /\ exists t, s_goroot s = Some t /\ t_files t #"src" = Some #"package main" /\ t_files t #"bin" = Some #"go".
Proof.
  destruct (do_ensure small_world nothing (or_introl eq_refl)) as (s1 & _ & D & _). exists (on_files s1 (fun f => del f marker)). split; auto.
  destruct C92_world as [S L]. pose proof (C92_returned_is_finished_partial _ _ _ S L (no_call _) D) as (t & g & sn & E & F & _). exists t. split; auto. rewrite !F. split; reflexivity.
Qed.
Example C92_killed_then_repeated : exists s s', ensure small_world nothing Crash s /\ s_goroot s <> None /\ ensure small_world s (Done tt) s'.
Proof.
  destruct (do_ensure small_world nothing (or_introl eq_refl)) as (s1 & (f & M & ->) & _ & C). eexists. 
  assert (H : has_file (Fs (Some (built_tree small_world f)) None None) marker = true).
  { pose proof (over_marker (w_built small_world) _ (put_marker _ #".gitignore" ignore_text M)) as K. unfold has_file, built_tree. cbn [s_goroot t_files]. destruct (over _ _ marker); congruence. }
  destruct (do_ensure small_world _ (or_intror H)) as (s2 & _ & D & _). eexists. split; [exact C|]. split; [discriminate|exact D].
Qed.
