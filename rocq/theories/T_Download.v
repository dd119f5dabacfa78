(** * Unpacking an archive stays in its directory (C101); versions (C103) *)
From Coq Require Import Ascii String List Arith Bool Lia.
From Verif Require Import M_Str P_Str M_Coverage M_Download.
Import ListNotations.
Open Scope nat_scope.
Open Scope list_scope.

(** ** Specification: where a path leads. A location is the list of directories from the
    root; a path is followed component by component, from the root if it begins with "/"
    and else from the working directory. No symbolic links. *)
Definition visit (loc : list bytes) (c : bytes) : list bytes :=
  if eqs c #"" || eqs c #"." then loc else if eqs c #".." then removelast loc else loc ++ [c].
Definition follow (loc : list bytes) (p : bytes) : list bytes := fold_left visit (split "/"%char p) loc.
Definition location (cwd : list bytes) (p : bytes) : list bytes :=
  follow (if has_prefix p #"/" then [] else cwd) p.
Definition inside (dir loc : list bytes) : Prop := exists r, loc = dir ++ r.
(** the name of an entry never leads above where it starts. *)
Fixpoint stays (depth : nat) (l : list bytes) : bool :=
  match l with
  | [] => true
  | c :: r => if eqs c #"" || eqs c #"." then stays depth r
              else if eqs c #".." then match depth with 0 => false | S d => stays d r end
              else stays (S depth) r
  end.

(** ** Facts on cleaned paths *)
Definition plain (c : bytes) : Prop := c <> [] /\ c <> dot /\ c <> dotdot.
Definition noslash (c : bytes) : Prop := ~ In slash c.
Definition shape (root : bool) (l : list bytes) : Prop :=
  exists k m, l = repeat dotdot k ++ m /\ Forall plain m /\ (root = true -> k = 0).
Lemma rev_repeat {A} (x : A) k : rev (repeat x k) = repeat x k.
Proof. induction k as [|k IH]; cbn; auto. rewrite IH. clear. induction k; cbn; congruence. Qed.
Lemma repeat_snoc {A} (x : A) k : repeat x (S k) = repeat x k ++ [x].
Proof. induction k as [|k IH]; [reflexivity|]. cbn [repeat app] in *. f_equal. exact IH. Qed.
Lemma plain_dec c : plain c \/ c = [] \/ c = dot \/ c = dotdot.
Proof. unfold plain. destruct (eqs c []) eqn:A, (eqs c dot) eqn:B, (eqs c dotdot) eqn:C; rewrite ?eqs_eq, ?eqs_false in *; tauto. Qed.
Lemma clean_step_plain root acc c : plain c -> clean_step root acc c = c :: acc.
Proof.
  intros (A & B & C). unfold clean_step. apply eqs_false in A, B, C. rewrite A, B, C. reflexivity.
Qed.
Lemma visit_plain loc c : plain c -> visit loc c = loc ++ [c].
Proof. intros (A & B & C). unfold visit. apply eqs_false in A, B, C. unfold dot, dotdot in *. cbn [lit list_ascii_of_string] in *. rewrite A, B, C. reflexivity. Qed.
Lemma visits_plain m : Forall plain m -> forall loc, fold_left visit m loc = loc ++ m.
Proof.
  induction 1 as [|c m P F IH]; intros loc; cbn [fold_left]; [now rewrite app_nil_r|].
  rewrite visit_plain, IH, <- app_assoc by auto. reflexivity.
Qed.
Lemma cleans_plain root m : Forall plain m -> forall acc, fold_left (clean_step root) m acc = rev m ++ acc.
Proof.
  induction 1 as [|c m P F IH]; intros acc; cbn [fold_left rev]; auto.
  rewrite clean_step_plain, IH, <- app_assoc by auto. reflexivity.
Qed.
Lemma shape_step root acc c : shape root (rev acc) -> shape root (rev (clean_step root acc c)).
Proof.
  intros (k & m & E & F & R). destruct (plain_dec c) as [P|[-> |[-> | ->]]].
  - rewrite clean_step_plain by auto. exists k, (m ++ [c]). cbn [rev]. rewrite E, <- app_assoc.
    split; [reflexivity|split; auto]. apply Forall_app; auto.
  - exists k, m. auto.
  - exists k, m. auto.
  - change (clean_step root acc dotdot) with (match acc with [] => if root then [] else [dotdot] | x :: r => if eqs x dotdot then dotdot :: acc else r end).
    destruct acc as [|x r].
    + destruct root; [exists 0, []|exists 1, []]; repeat split; auto; discriminate.
    + cbn [rev] in E. destruct m as [|y m _] using rev_ind.
      * destruct k as [|k]; [destruct (rev r); discriminate|].
        rewrite app_nil_r in E. assert (E' := E). apply (f_equal (@rev _)) in E'.
        rewrite rev_app_distr, rev_involutive, rev_repeat in E'. cbn in E'. injection E' as -> E'.
        rewrite eqs_refl. exists (S (S k)), []. rewrite app_nil_r. split; [|split; auto; intros; discriminate (R H)].
        cbn [rev]. rewrite E', rev_repeat, <- !repeat_snoc. reflexivity.
      * rewrite app_assoc in E. apply app_inj_tail in E as [E ->]. apply Forall_app in F as [F G]. inversion G as [|? ? P _]; subst.
        destruct P as (_ & _ & N). apply eqs_false in N. rewrite N. exists k, m. auto.
Qed.
Lemma shape_fold root l : forall acc, shape root (rev acc) -> shape root (rev (fold_left (clean_step root) l acc)).
Proof. induction l as [|c l IH]; intros acc H; cbn [fold_left]; auto. apply IH, shape_step, H. Qed.
Lemma shape_clean s : shape (rooted s) (p_comps (clean s)).
Proof. apply shape_fold. exists 0, []. auto. Qed.
Lemma shape_nodot root l : shape root l -> Forall (fun c => c <> [] /\ c <> dot) l.
Proof.
  intros (k & m & -> & F & _). apply Forall_app. split.
  - apply Forall_forall. intros x I. apply repeat_spec in I. subst. split; discriminate.
  - eapply Forall_impl; [|exact F]. intros c (A & B & C). auto.
Qed.
Lemma noslash_fold root l : Forall noslash l -> forall acc, Forall noslash acc -> Forall noslash (fold_left (clean_step root) l acc).
Proof.
  induction 1 as [|c l N F IH]; intros acc H; cbn [fold_left]; auto. apply IH. unfold clean_step.
  destruct (eqs c [] || eqs c dot); auto. destruct (eqs c dotdot); [|constructor; auto].
  assert (ND : noslash dotdot) by (unfold noslash, dotdot; cbn; intuition discriminate).
  destruct acc as [|x r]; [destruct root; auto|]. destruct (eqs x dotdot); auto. inversion H; auto.
Qed.
Lemma noslash_clean s : Forall noslash (p_comps (clean s)).
Proof.
  apply Forall_rev, noslash_fold; auto. apply Forall_forall. intros x I. now apply split_no_sep in I.
Qed.

(** the text of a cleaned path splits into its components *)
Lemma rooted_text p : Forall noslash (p_comps p) -> Forall (fun c => c <> [] /\ c <> dot) (p_comps p) -> rooted (text p) = p_root p.
Proof.
  intros F G. unfold text. destruct (p_root p); [reflexivity|]. destruct (p_comps p) as [|c l]; [reflexivity|].
  inversion F as [|? ? N _]; inversion G as [|? ? [M _] _]; subst. destruct c as [|a c]; [congruence|].
  unfold rooted. assert (eqc a slash = false) by (apply eqc_neq; intros ->; apply N; now left).
  destruct l; cbn; rewrite H; reflexivity.
Qed.
Lemma split_join_cons l : Forall noslash l -> l <> [] -> split slash (join [slash] l) = l.
Proof. intros F N. apply split_join; auto. Qed.
Lemma fold_text {A} (f : A -> bytes -> A) (a : A) p :
  (forall x, f x [] = x) -> (forall x, f x dot = x) -> Forall noslash (p_comps p) ->
  fold_left f (split slash (text p)) a = fold_left f (p_comps p) a.
Proof.
  intros E D F. unfold text. destruct (p_root p).
  - change (split slash (slash :: join [slash] (p_comps p))) with ([] :: split slash (join [slash] (p_comps p))).
    cbn [fold_left]. rewrite E. destruct (p_comps p) as [|c l]; [cbn [join split fold_left]; now rewrite E|].
    now rewrite split_join_cons.
  - destruct (p_comps p) as [|c l]; [change (split slash dot) with [dot]; cbn [fold_left]; now rewrite D|].
    now rewrite split_join_cons.
Qed.
Lemma clean_eta s : {| p_root := rooted s; p_comps := p_comps (clean s) |} = clean s.
Proof. reflexivity. Qed.
Lemma fold_shape root l : shape root l -> fold_left (clean_step root) l [] = rev l.
Proof.
  intros (k & m & -> & F & R). rewrite fold_left_app, cleans_plain by auto. rewrite rev_app_distr, rev_repeat. f_equal.
  destruct root; [rewrite R by auto; reflexivity|]. clear. induction k as [|k IH]; auto.
  rewrite repeat_snoc at 1. rewrite fold_left_app, IH. cbn [fold_left]. destruct k; reflexivity.
Qed.
Lemma clean_text s : clean (text (clean s)) = clean s.
Proof.
  unfold clean at 1. rewrite rooted_text; [|apply noslash_clean|eapply shape_nodot, shape_clean].
  unfold clean_comps. rewrite fold_text; [|reflexivity|reflexivity|apply noslash_clean].
  cbn [p_root]. change (p_root (clean s)) with (rooted s). rewrite fold_shape by apply shape_clean. now rewrite rev_involutive.
Qed.
(** ** Clean and Join lead where the path leads *)
Lemma visit_nil x : visit x [] = x. Proof. reflexivity. Qed.
Lemma visit_dot x : visit x dot = x. Proof. reflexivity. Qed.
Lemma visit_clean root start : (root = true -> start = []) -> forall l acc, shape root (rev acc) ->
  fold_left visit (rev (fold_left (clean_step root) l acc)) start = fold_left visit l (fold_left visit (rev acc) start).
Proof.
  intros R. induction l as [|c l IH]; intros acc H; cbn [fold_left]; auto.
  rewrite IH by now apply shape_step. f_equal. destruct (plain_dec c) as [P|[-> |[-> | ->]]].
  - rewrite clean_step_plain by auto. cbn [rev]. rewrite fold_left_app. reflexivity.
  - reflexivity.
  - reflexivity.
  - change (clean_step root acc dotdot) with (match acc with [] => if root then [] else [dotdot] | x :: r => if eqs x dotdot then dotdot :: acc else r end).
    destruct acc as [|x r].
    + destruct root; [rewrite R by auto|]; reflexivity.
    + destruct (eqs x dotdot) eqn:X.
      * cbn [rev]. rewrite !fold_left_app. reflexivity.
      * cbn [rev]. rewrite fold_left_app. cbn [fold_left].
        assert (P : plain x).
        { apply shape_nodot in H. cbn [rev] in H. apply Forall_app in H as [_ H]. inversion H as [|? ? [A B] _]; subst.
          apply eqs_false in X. split; [exact A|split; [exact B|exact X]]. }
        rewrite (visit_plain _ x P). change (visit ?l dotdot) with (removelast l). now rewrite removelast_last.
Qed.
Lemma location_comps cwd s : location cwd s = fold_left visit (p_comps (clean s)) (if rooted s then [] else cwd).
Proof.
  unfold location, follow. change (has_prefix s #"/") with (rooted s). cbn [clean p_comps]. unfold clean_comps.
  rewrite visit_clean; [reflexivity|now intros -> |exists 0, []; auto].
Qed.
Lemma location_text cwd s : location cwd (text (clean s)) = location cwd s.
Proof.
  rewrite location_comps, clean_text, rooted_text; [|apply noslash_clean|eapply shape_nodot, shape_clean].
  now rewrite location_comps.
Qed.
Lemma split_app a b : split slash (a ++ slash :: b) = split slash a ++ split slash b.
Proof.
  induction a as [|x a IH]; cbn [app split]; [now rewrite eqc_refl|].
  destruct (eqc x slash); [now rewrite IH|]. rewrite IH. pose proof (split_nonempty slash a). destruct (split slash a); [congruence|reflexivity].
Qed.
Lemma rooted_app x a b : rooted ((x :: a) ++ b) = rooted (x :: a).
Proof. reflexivity. Qed.
Lemma location_join cwd a b : a <> [] -> location cwd (Join a b) = follow (location cwd a) b.
Proof.
  intros N. destruct a as [|x a]; [congruence|]. cbn [Join]. unfold Clean. rewrite location_text.
  unfold location, follow. change (has_prefix ((x :: a) ++ slash :: b) #"/") with (has_prefix (x :: a) #"/").
  change "/"%char with slash. now rewrite split_app, fold_left_app.
Qed.
Lemma location_rel cwd b : rooted b = false -> location cwd b = follow cwd b.
Proof. intros R. unfold location. change (has_prefix b #"/") with (rooted b). now rewrite R. Qed.

(** ** Rel *)
Lemma join_head c l : noslash c -> eqs (join [slash] (c :: l)) dotdot || has_prefix (join [slash] (c :: l)) (dotdot ++ [slash]) = eqs c dotdot.
Proof.
  intros N. destruct (eqs c dotdot) eqn:E.
  - apply eqs_eq in E. subst. destruct l; [reflexivity|]. apply orb_true_iff. right. apply has_prefix_iff.
    exists (join [slash] (b :: l)). reflexivity.
  - apply eqs_false in E. apply orb_false_iff. split.
    + apply eqs_false. intros J. destruct l as [|d l]; [now apply E|]. cbn [join] in J.
      assert (I : In slash dotdot) by (rewrite <- J; apply in_or_app; right; left; reflexivity).
      cbn in I. intuition discriminate.
    + destruct (has_prefix _ _) eqn:H; auto. exfalso. apply has_prefix_sound in H as [r H].
      destruct l as [|d l].
      * cbn [join] in H. subst. apply N. cbn. tauto.
      * change (join [slash] (c :: d :: l)) with (c ++ [slash] ++ join [slash] (d :: l)) in H. apply E. assert (C : cut_first slash (c ++ [slash] ++ join [slash] (d :: l)) = Some (c, join [slash] (d :: l))) by now apply cut_first_some.
        rewrite H in C. cbn in C. injection C as <- _. reflexivity.
Qed.
Lemma rel_comps_app b r : rel_comps b (b ++ r) = Some r.
Proof. induction b as [|x b IH]; cbn [rel_comps app]; [now destruct r|]. now rewrite eqs_refl. Qed.
Lemma rel_comps_inside b t r : rel_comps b t = Some r -> hd_error r <> Some dotdot -> t = b ++ r.
Proof.
  revert t; induction b as [|x b IH]; intros t E N; cbn [rel_comps] in E.
  - destruct t; injection E as <-; reflexivity.
  - destruct t as [|y t].
    + injection E as <-. destruct N. reflexivity.
    + destruct (eqs x y) eqn:X.
      * apply eqs_eq in X. subst. cbn. f_equal. now apply IH.
      * destruct (eqs x dotdot); [discriminate|]. injection E as <-. destruct N. reflexivity.
Qed.
Lemma shape_tail root b r : shape root (b ++ r) -> hd_error r <> Some dotdot -> Forall plain r.
Proof.
  intros (k & m & E & F & _) N. revert b E; induction k as [|k IH]; intros b E.
  - cbn in E. subst. now apply Forall_app in F.
  - destruct b as [|x b]; [cbn in E; subst; now destruct N|]. injection E as -> E. now apply (IH b).
Qed.
Lemma targ_noslash t : Forall noslash (p_comps t) -> Forall noslash (targ_comps t).
Proof.
  unfold targ_comps. destruct (p_root t); auto. destruct (p_comps t); auto. intros _. repeat constructor.
  unfold noslash, dot. cbn. intuition discriminate.
Qed.

(** [clean] of what [place] writes *)
Lemma clean_Clean s : clean (Clean s) = clean s. Proof. apply clean_text. Qed.
Lemma clean_Join a b : a <> [] -> clean (Join a b) = clean (a ++ slash :: b).
Proof. destruct a; [congruence|]. intros _. apply clean_Clean. Qed.

Lemma place_inside cwd target name p : place target name = Some p -> inside (location cwd target) (location cwd p).
Proof.
  unfold place. intros H. set (full := Join target (Clean name)) in *. clearbody full.
  destruct (Rel target full) as [rel|] eqn:R; [|discriminate].
  destruct (eqs rel dotdot || has_prefix rel (dotdot ++ [slash])) eqn:D; [discriminate|]. injection H as <-.
  unfold Rel in R. destruct (eqs (text (clean full)) (text (clean target))) eqn:E.
  - apply eqs_eq in E. exists []. rewrite app_nil_r. now rewrite <- (location_text cwd full), E, location_text.
  - destruct (negb (Bool.eqb (p_root (clean target)) (p_root (clean full)))) eqn:B; [discriminate|].
    apply negb_false_iff, Bool.eqb_prop in B. cbn [clean p_root] in B.
    destruct (rel_comps (p_comps (clean target)) (targ_comps (clean full))) as [r|] eqn:C; [|discriminate]. injection R as <-.
    pose proof (targ_noslash _ (noslash_clean full)) as NS.
    assert (N : hd_error r <> Some dotdot).
    { destruct r as [|c r]; [discriminate|]. rewrite join_head in D.
      - intros X. injection X as ->. now rewrite eqs_refl in D.
      - destruct (eqs c dotdot) eqn:X; [|].
        + apply eqs_eq in X. subst. unfold noslash, dotdot. cbn. intuition discriminate.
        + assert (I : In c (targ_comps (clean full)) \/ c = dotdot).
          { clear -C. revert C. generalize (targ_comps (clean full)) as t. induction (p_comps (clean target)) as [|x b IH]; intros t; cbn [rel_comps].
            - destruct t; intros [= -> ->]; left; now left.
            - destruct t as [|y t]; [cbn [map]; intros [= <- _]; auto|]. destruct (eqs x y).
              + intros H. apply IH in H as [H|H]; auto. left. now right.
              + destruct (eqs x dotdot); [discriminate|]. cbn [map app]. intros [= <- _]. auto. }
          destruct I as [I| ->]; [|now rewrite eqs_refl in X]. rewrite Forall_forall in NS. now apply NS. }
    apply rel_comps_inside in C; auto. rewrite !location_comps, B.
    destruct (p_root (clean full)) eqn:PR.
    + unfold targ_comps in C. rewrite PR in C. change (rooted full) with (p_root (clean full)). rewrite PR, C, fold_left_app.
      assert (P : Forall plain r). { eapply shape_tail; [|exact N]. rewrite <- C. apply shape_clean. }
      rewrite (visits_plain r P). eexists. reflexivity.
    + change (rooted full) with (p_root (clean full)). rewrite PR. unfold targ_comps in C. rewrite PR in C.
      destruct (p_comps (clean full)) as [|c l] eqn:PC.
      * exfalso. assert (X : p_comps (clean target) = []).
        { destruct (p_comps (clean target)) as [|x b] eqn:PT; auto. injection C as <- C.
          pose proof (shape_nodot _ _ (shape_clean target)) as Z. rewrite PT in Z. inversion Z as [|? ? [_ Y] _]. now destruct Y. }
        apply eqs_false in E. apply E. unfold text. change (p_root (clean target)) with (rooted target). rewrite B, PR, PC, X.
        change (rooted full) with (p_root (clean full)). rewrite PR. reflexivity.
      * rewrite C, fold_left_app.
        assert (P : Forall plain r). { eapply shape_tail; [|exact N]. rewrite <- C, <- PC. apply shape_clean. }
        rewrite (visits_plain r P). eexists. reflexivity.
Qed.
Lemma place_extends target name m :
  let full := Join target (Clean name) in
  rooted full = rooted target -> p_comps (clean full) = p_comps (clean target) ++ m -> Forall plain m -> place target name = Some full.
Proof.
  intros full R C P. unfold place. fold full. unfold Rel.
  destruct (eqs (text (clean full)) (text (clean target))) eqn:E; [reflexivity|].
  change (p_root (clean target)) with (rooted target). change (p_root (clean full)) with (rooted full). rewrite R.
  rewrite Bool.eqb_reflx. cbn [negb]. assert (T : targ_comps (clean full) = p_comps (clean target) ++ m).
  { unfold targ_comps. rewrite C. destruct (p_root (clean full)) eqn:PR; auto.
    destruct (p_comps (clean target) ++ m) eqn:N; auto. exfalso. apply app_eq_nil in N as [N ->].
    apply eqs_false in E. apply E. unfold text. rewrite PR, C, N. change (p_root (clean target)) with (rooted target). rewrite <- R.
    change (rooted full) with (p_root (clean full)). now rewrite PR. }
  rewrite T, rel_comps_app. cbn [option_map]. destruct m as [|c m]; [reflexivity|]. inversion P as [|? ? Pc _]; subst.
  rewrite join_head.
  - destruct Pc as (_ & _ & N). apply eqs_false in N. now rewrite N.
  - pose proof (noslash_clean full) as F. rewrite C in F. apply Forall_app in F as [_ F]. now inversion F.
Qed.
Lemma stays_plain l : forall acc, Forall plain acc -> stays (length acc) l = true -> Forall plain (fold_left (clean_step false) l acc).
Proof.
  induction l as [|c l IH]; intros acc F S; cbn [fold_left]; auto.
  cbn [stays] in S. destruct (plain_dec c) as [P|[-> |[-> | ->]]].
  - rewrite clean_step_plain by auto. apply IH; [constructor; auto|]. cbn [length].
    destruct P as (A & B & C). apply eqs_false in A, B, C. unfold dot, dotdot in *. cbn [lit list_ascii_of_string] in *. now rewrite A, B, C in S.
  - now apply IH.
  - now apply IH.
  - change (clean_step false acc dotdot) with (match acc with [] => [dotdot] | x :: r => if eqs x dotdot then dotdot :: acc else r end).
    change (match length acc with 0 => false | S d => stays d l end = true) in S.
    destruct acc as [|x r]; [discriminate|]. inversion F as [|? ? P Q]; subst. destruct P as (_ & _ & N). apply eqs_false in N. rewrite N.
    now apply IH.
Qed.
Lemma clean_extends target name : target <> [] -> Forall plain (p_comps (clean name)) ->
  p_comps (clean (Join target (Clean name))) = p_comps (clean target) ++ p_comps (clean name) /\ rooted (Join target (Clean name)) = rooted target.
Proof.
  intros N P. rewrite clean_Join by auto. split.
  - cbn [clean p_comps]. destruct target as [|x a]; [congruence|]. rewrite rooted_app, split_app. unfold clean_comps at 1.
    rewrite fold_left_app. unfold Clean. rewrite fold_text; [|reflexivity|reflexivity|apply noslash_clean].
    rewrite cleans_plain by auto. rewrite rev_app_distr, rev_involutive. reflexivity.
  - destruct target as [|x a]; [congruence|]. cbn [Join]. unfold Clean at 1.
    rewrite rooted_text; [reflexivity|apply noslash_clean|eapply shape_nodot, shape_clean].
Qed.
Lemma plain_rooted name : rooted name = true -> Forall plain (p_comps (clean name)).
Proof. intros R. destruct (shape_clean name) as (k & m & E & F & Z). rewrite E, (Z R). exact F. Qed.

(** ** The theorems *)
Definition path_of (e : effect) : bytes := match e with MkdirAll p => p | WriteFile p => p end.
Lemma unzip_in target l e : In e (fst (unzip target l)) -> exists f, In f l /\ In e (fst (unzipFile target f)).
Proof.
  induction l as [|f r IH]; cbn [unzip]; [intros []|]. destruct (unzipFile target f) as [ef [|]] eqn:E.
  - destruct (unzip target r) as [e' ok'] eqn:U. cbn [fst] in *. intros I. apply in_app_iff in I as [I|I].
    + exists f. rewrite E. split; [now left|auto].
    + destruct (IH I) as (g & G & H). exists g. split; [now right|auto].
  - cbn [fst]. intros I. exists f. rewrite E. split; [now left|auto].
Qed.
Theorem C101_unzip_confined (cwd : list bytes) (target : bytes) (entries : list entry) (e : effect) :
  In e (fst (unzip target entries)) -> inside (location cwd target) (location cwd (path_of e)).
Proof.
  intros I. apply unzip_in in I as (f & _ & I). unfold unzipFile in I.
  destruct (place target (e_name f)) as [p|] eqn:P; [|destruct I].
  destruct (e_isdir f); destruct I as [<- |[]]; cbn [path_of]; eapply place_inside; eauto.
Qed.
(** an entry whose name stays below where it starts is unpacked, and where its name says. *)
Definition expected (cwd : list bytes) (target name : bytes) : list bytes :=
  if has_prefix name #"/" then location cwd target ++ location [] name else follow (location cwd target) name.
Lemma follow_Clean cwd target name : follow (location cwd target) (Clean name) = expected cwd target name.
Proof.
  unfold follow. change "/"%char with slash. unfold Clean.
  rewrite fold_text; [|reflexivity|reflexivity|apply noslash_clean].
  unfold expected. change (has_prefix name #"/") with (rooted name). destruct (rooted name) eqn:Rn.
  - rewrite location_comps with (cwd := []), Rn, !visits_plain by now apply plain_rooted. reflexivity.
  - unfold follow. change "/"%char with slash.
    change (location cwd target) with (fold_left visit (rev []) (location cwd target)) at 2.
    rewrite <- (visit_clean false (location cwd target)); [|discriminate|exists 0, []; auto].
    change (rev (fold_left (clean_step false) (split slash name) [])) with (clean_comps false (split slash name)).
    replace (clean_comps false (split slash name)) with (p_comps (clean name)) by (cbn [clean p_comps]; now rewrite Rn). reflexivity.
Qed.
Lemma place_stays cwd target name : target <> [] -> has_prefix name #"/" = true \/ stays 0 (split "/"%char name) = true ->
  exists p, place target name = Some p /\ location cwd p = expected cwd target name.
Proof.
  intros N H. assert (P : Forall plain (p_comps (clean name))).
  { destruct (rooted name) eqn:R; [now apply plain_rooted|]. destruct H as [H|H]; [unfold rooted in R; change [slash] with (#"/") in R; congruence|].
    cbn [clean p_comps]. rewrite R. apply Forall_rev. apply (stays_plain _ []); auto. }
  destruct (clean_extends target name N P) as [C R]. exists (Join target (Clean name)).
  split; [eapply place_extends; eauto|]. rewrite location_join by auto. apply follow_Clean.
Qed.
Theorem C101_unzip_complete (cwd : list bytes) (target : bytes) (entries : list entry) :
  target <> [] ->
  Forall (fun f => e_ok f = true /\ (has_prefix (e_name f) #"/" = true \/ stays 0 (split "/"%char (e_name f)) = true)) entries ->
  exists effects, unzip target entries = (effects, true) /\
    Forall2 (fun f e => location cwd (path_of e) = expected cwd target (e_name f)
                        /\ (if e_isdir f then exists p, e = MkdirAll p else exists p, e = WriteFile p)) entries effects.
Proof.
  intros N F. induction F as [|f l [O S] F IH]; [exists []; split; [reflexivity|constructor]|].
  destruct IH as (effs & U & A). destruct (place_stays cwd target (e_name f) N S) as (p & P & L).
  cbn [unzip]. unfold unzipFile. rewrite P, O, U. destruct (e_isdir f) eqn:D.
  - exists (MkdirAll p :: effs). split; [reflexivity|]. constructor; auto. cbn [path_of]. rewrite D. eauto.
  - exists (WriteFile p :: effs). split; [reflexivity|]. constructor; auto. cbn [path_of]. rewrite D. eauto.
Qed.
(** below an absolute directory an entry is taken if and only if it leads into it. *)
Theorem C101_unzip_exact (cwd : list bytes) (target : bytes) (f : entry) :
  has_prefix target #"/" = true -> e_ok f = true ->
  (snd (unzip target [f]) = true <-> inside (location cwd target) (expected cwd target (e_name f))).
Proof.
  intros R O. change (has_prefix target #"/") with (rooted target) in R.
  assert (N : target <> []) by (destruct target; [discriminate|congruence]).
  assert (E : snd (unzip target [f]) = true <-> exists p, place target (e_name f) = Some p).
  { cbn [unzip]. unfold unzipFile. destruct (place target (e_name f)) as [p|]; [|cbn; split; [discriminate|intros [? X]; discriminate]].
    rewrite O. destruct (e_isdir f); cbn; split; eauto. }
  rewrite E, <- follow_Clean, <- location_join by auto. split.
  - intros [p P]. pose proof (place_inside cwd _ _ _ P) as I. unfold place in P.
    destruct (Rel _ _); [|discriminate]. destruct (_ || _); [discriminate|]. injection P as <-. exact I.
  - intros [r I]. eexists. assert (RF : rooted (Join target (Clean (e_name f))) = true).
    { destruct target as [|x a]; [congruence|]. cbn [Join]. unfold Clean at 1.
      rewrite rooted_text; [exact R|apply noslash_clean|eapply shape_nodot, shape_clean]. }
    rewrite !location_comps, R, RF, !visits_plain in I by now apply plain_rooted. cbn [app] in I.
    eapply place_extends; [congruence|exact I|]. pose proof (plain_rooted _ RF) as P. rewrite I in P. now apply Forall_app in P.
Qed.
(** the unpacking of cmd/xgo/upgrade writes outside: for every directory. *)
Theorem C101_extract_tar_gz_refuted (cwd : list bytes) (target : bytes) (d : bytes) (loc : list bytes) :
  target <> [] -> location cwd target = loc ++ [d] -> d <> #"x" ->
  exists entries e, In e (fst (ExtractTarGz target entries)) /\ ~ inside (location cwd target) (location cwd (path_of e)).
Proof.
  intros N L D. exists [{| e_name := #"../x"; e_isdir := false; e_ok := true |}], (WriteFile (Join target #"../x")).
  split; [left; reflexivity|]. cbn [path_of]. rewrite location_join by auto. rewrite L.
  change (follow (loc ++ [d]) #"../x") with (removelast (loc ++ [d]) ++ [#"x"]). rewrite removelast_last.
  intros [r E]. rewrite <- app_assoc in E. apply app_inv_head in E. injection E as E _. now apply D.
Qed.
Example C101_nontrivial :
  fst (unzip #"/tmp/sdk" [{| e_name := #"go/bin/"; e_isdir := true; e_ok := true |}; {| e_name := #"go/./x/../bin/go"; e_isdir := false; e_ok := true |};
    {| e_name := #"/etc/passwd"; e_isdir := false; e_ok := true |}; {| e_name := #"../sdk2/x"; e_isdir := false; e_ok := true |}; {| e_name := #"y"; e_isdir := false; e_ok := true |}])
  = [MkdirAll #"/tmp/sdk/go/bin"; WriteFile #"/tmp/sdk/go/bin/go"; WriteFile #"/tmp/sdk/etc/passwd"]
  /\ location [] #"/tmp/sdk/go/bin/go" = [#"tmp"; #"sdk"; #"go"; #"bin"; #"go"]
  /\ fst (ExtractTarGz #"/tmp/sdk" [{| e_name := #"../x"; e_isdir := false; e_ok := true |}]) = [WriteFile #"/tmp/x"].
Proof. repeat split; reflexivity. Qed.

(** ** C103: versions *)
Theorem C103_one_directory_per_version (dir v w : bytes) :
  DirName v = #"go" ++ nakedVersion v
  /\ (DirName v = DirName w <-> nakedVersion v = nakedVersion w)
  /\ DirName (#"go" ++ v) = #"go" ++ v
  /\ (has_prefix v #"go" = false -> DirName v = DirName (#"go" ++ v) /\ nakedVersion v = v /\ nakedVersion (#"go" ++ v) = v /\
      (forall goos goarch, baseName v goos goarch = baseName (#"go" ++ v) goos goarch) /\ Target dir v = Target dir (#"go" ++ v)).
Proof.
  assert (A : forall v, DirName v = #"go" ++ nakedVersion v).
  { intros u. unfold DirName, nakedVersion, go_. destruct (has_prefix u #"go") eqn:P; [|reflexivity].
    apply has_prefix_sound in P as [r ->]. reflexivity. }
  assert (G : has_prefix (#"go" ++ v) #"go" = true) by apply has_prefix_app.
  split; [apply A|]. split; [|split].
  - rewrite !A. split; [apply app_inv_head|congruence].
  - unfold DirName, go_. now rewrite G.
  - intros P. assert (B : nakedVersion v = v) by (unfold nakedVersion, go_; now rewrite P).
    assert (C : nakedVersion (#"go" ++ v) = v) by (unfold nakedVersion, go_; now rewrite G).
    assert (D : DirName v = DirName (#"go" ++ v)) by (rewrite !A; now rewrite B, C).
    repeat split; auto.
    + intros. unfold baseName. now rewrite B, C.
    + unfold Target. now rewrite D.
Qed.
(** the archive is the one that go.dev offers for the version and the platform, however the
    version is written. *)
Theorem C103_archive (v goos goarch : bytes) : has_prefix v #"go" = false ->
  forall asked, asked = v \/ asked = #"go" ++ v ->
  baseName asked goos goarch = (#"go" ++ v) ++ #"." ++ (goos ++ #"-" ++ goarch) ++ (if eqs goos #"windows" then #".zip" else #".tar.gz").
Proof.
  intros P asked H. assert (N : nakedVersion asked = v).
  { destruct (C103_one_directory_per_version [] v v) as (_ & _ & _ & X). destruct (X P) as (_ & A & B & _). destruct H as [-> | ->]; assumption. }
  unfold baseName, archive_suffix. rewrite N, <- !app_assoc. reflexivity.
Qed.
(** the versions of a page: those in the first id="go..." of the lines that, without the
    blanks around them, begin with "<div ". *)
Definition q34 : ascii := ascii_of_nat 34.
Definition announces (line v : bytes) : Prop :=
  exists rest a b, trim_space line = #"<div " ++ rest
    /\ trim_space line = a ++ (#"id=" ++ [q34] ++ #"go") ++ v ++ q34 :: b
    /\ (forall a' b', trim_space line = a' ++ (#"id=" ++ [q34] ++ #"go") ++ b' -> length a <= length a')
    /\ v <> [] /\ ~ In q34 v.
Lemma index_char v b : ~ In q34 v -> index (v ++ q34 :: b) [q34] = Some (length v).
Proof.
  intros N. apply (index_least _ [q34] v b); [reflexivity|]. intros a' b' E.
  destruct (le_lt_dec (length v) (length a')) as [L|L]; auto. exfalso. symmetry in E.
  apply app_cut in E as (x & E & F); [|lia]. destruct x as [|y x]; [subst; rewrite app_nil_r in L; lia|].
  injection F as <- F. apply N. rewrite E. apply in_or_app. right. now left.
Qed.
Lemma line_version_iff line v : line_version line = Some v <-> announces line v.
Proof.
  unfold line_version. change quote with [q34]. change idGo with (#"id=" ++ [q34] ++ #"go").
  set (G := #"id=" ++ [q34] ++ #"go"). set (t := trim_space line). split.
  - destruct (has_prefix t #"<div ") eqn:P; [|discriminate]. cbn [negb]. apply has_prefix_sound in P as [rest P].
    destruct (index t G) as [i|] eqn:I; [|discriminate]. pose proof (index_first _ _ _ I) as First.
    apply index_sound in I as (a & r & E & L). subst i. rewrite E, app_assoc, skipn_app_exact by now rewrite app_length.
    destruct (index r [q34]) as [q|] eqn:Q; [|discriminate]. pose proof (index_first _ _ _ Q) as Fq.
    apply index_sound in Q as (x & y & -> & L). subst q. rewrite firstn_app_exact by reflexivity.
    destruct x as [|c x]; [discriminate|]. intros [= <-]. exists rest, a, y. fold t. fold G. repeat split; auto.
    + discriminate.
    + intros J. apply in_split in J as (l1 & l2 & J). specialize (Fq l1 (l2 ++ [q34] ++ y)). rewrite J in Fq at 1.
      rewrite <- app_assoc in Fq. specialize (Fq eq_refl). apply (f_equal (@length _)) in J. rewrite app_length in J. cbn [length] in J, Fq. lia.
  - intros (rest & a & b & P & E & First & V & Q). fold t in P, E, First. fold G in E, First.
    assert (H : has_prefix t #"<div " = true) by (rewrite P; apply has_prefix_app). rewrite H. cbn [negb].
    rewrite (index_least t G a (v ++ q34 :: b)); auto.
    assert (K : skipn (length a + length G) t = v ++ q34 :: b) by (rewrite E, app_assoc, skipn_app_exact by (now rewrite app_length); reflexivity).
    rewrite K. rewrite index_char by auto. rewrite firstn_app_exact by reflexivity. destruct v; [congruence|reflexivity].
Qed.
Theorem C103_listed_versions (html v : bytes) :
  In v (parseDownloadVersions html) <-> exists line, In line (split (ascii_of_nat 10) html) /\ announces line v.
Proof.
  unfold parseDownloadVersions. rewrite in_flat_map. split; intros (l & I & H); exists l; split; auto.
  - destruct (line_version l) as [w|] eqn:E; [|destruct H]. destruct H as [-> |[]]. now apply line_version_iff.
  - apply line_version_iff in H. rewrite H. now left.
Qed.
Example C103_nontrivial : let q := [q34] in
  parseDownloadVersions (#"<p>" ++ [newline] ++ #"  <div class=" ++ q ++ #"t" ++ q ++ #" id=" ++ q ++ #"go1.22.1" ++ q ++ #">" ++ [newline] ++ #"<div id=" ++ q ++ #"go" ++ q ++ #">") = [#"1.22.1"]
  /\ Target #"/sdk" #"1.22.1" = #"/sdk/go1.22.1" /\ baseName #"go1.22.1" #"linux" #"amd64" = #"go1.22.1.linux-amd64.tar.gz".
Proof. repeat split; reflexivity. Qed.
