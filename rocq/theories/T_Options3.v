(** * C59-C61: the go command, XGO_FLAGS, packages *)
From Coq Require Import Ascii String List Arith Bool Lia.
From Verif Require Import M_Str M_Options T_Options T_Options2.
Import ListNotations.
Open Scope nat_scope.

(** ** C59: the go command that is run *)
(** The last value given to an option. *)
Definition last_given (f : field) (v : bytes) (p : parsed) : Prop :=
  exists a b, p_set p = a ++ (f, v) :: b /\ forall x, ~ In (f, x) b.
(** All values given to an option, in order. *)
Definition given (f : field) (p : parsed) : list bytes := map snd (filter (fun s => field_beq (fst s) f) (p_set p)).
Definition switched (f : field) (p : parsed) : Prop := last_given f #"true" p.
(** Debugging was asked for: --debug, with any value but false. *)
Definition debug_asked (p : parsed) : Prop := exists v, last_given FDebug v p /\ v <> #"false".
Definition debug_run (c : cmd) (p : parsed) : Prop := debug_asked p /\ c = Run.
Definition debug_test (c : cmd) (p : parsed) : Prop := debug_asked p /\ c = Test /\ ~ switched FC p.
Definition makes_binary (c : cmd) (p : parsed) : Prop := c = Build \/ (c = Test /\ switched FC p).
(** One flag of the go command, alone or with its value. *)
Inductive tok := Bare (n : bytes) | Eq (n v : bytes) | Pair (n v : bytes) | Raw (w : bytes).
Definition words (t : tok) : list bytes :=
  match t with Bare n => [n] | Eq n v => [n ++ #"=" ++ v] | Pair n v => [n; v] | Raw w => [w] end.
Inductive wanted (c : cmd) (e : setting) (p : parsed) : tok -> Prop :=
| w_a : switched FA p \/ e_changed e = true -> wanted c e p (Bare #"-a")
| w_v : switched FV p -> ~ debug_test c p -> wanted c e p (Bare #"-v")
| w_x : switched FX p -> wanted c e p (Bare #"-x")
| w_c : switched FC p -> ~ debug_test c p -> wanted c e p (Bare #"-c")
| w_c' : debug_test c p -> wanted c e p (Bare #"-c")
| w_run v : last_given FRun v p -> v <> [] -> ~ debug_test c p -> wanted c e p (Pair #"-run" v)
| w_overlay : e_overlay e <> [] -> wanted c e p (Pair #"-overlay" (e_overlay e))
| w_mod : e_mod e <> [] -> wanted c e p (Eq #"-mod" (e_mod e))
| w_modfile : e_modfile e <> [] -> wanted c e p (Pair #"-modfile" (e_modfile e))
| w_tags v : last_given FTags v p -> v <> [] -> wanted c e p (Pair #"-tags" v)
| w_gcflags v : In (FGcflags, v) (p_set p) -> wanted c e p (Eq #"-gcflags" v)
| w_no_opt : debug_asked p -> ~ In (FGcflags, #"all=-N -l") (p_set p) -> ~ In (FGcflags, #"all=-l -N") (p_set p) -> wanted c e p (Eq #"-gcflags" #"all=-N -l")
| w_discard : makes_binary c p -> ~ debug_asked p -> switched FNoBuildOutput p -> wanted c e p (Pair #"-o" (e_session e ++ #"/discard.out"))
| w_out v dir : makes_binary c p \/ debug_asked p -> (switched FNoBuildOutput p -> debug_asked p) -> last_given FOutput v p -> v <> [] ->
    last_given FProjectDir dir p -> dir <> [] -> e_abs e v <> [] -> wanted c e p (Pair #"-o" (e_abs e v))
| w_out' v : makes_binary c p \/ debug_asked p -> (switched FNoBuildOutput p -> debug_asked p) -> last_given FOutput v p -> v <> [] ->
    (forall dir, last_given FProjectDir dir p -> dir = []) -> wanted c e p (Pair #"-o" v)
| w_debug : debug_asked p -> (forall v, last_given FOutput v p -> v = []) -> wanted c e p (Pair #"-o" (e_session e ++ #"/debug.bin"))
| w_raw w : In (FBuildFlag, w) (p_set p) \/ In w (e_linker e) -> wanted c e p (Raw w).
Definition is_gc (t : tok) : bool := match t with Eq n _ => eqs n #"-gcflags" | _ => false end.
Definition is_raw (t : tok) : bool := match t with Raw _ => true | _ => false end.

Lemma field_beq_eq a b : field_beq a b = true <-> a = b.
Proof. split; [apply internal_field_dec_bl|apply internal_field_dec_lb]. Qed.
Lemma all_of_in f v p : In v (all_of f p) <-> In (f, v) (p_set p).
Proof.
  unfold all_of. rewrite in_map_iff. split.
  - intros ([g x] & <- & I). apply filter_In in I as [I E]. apply field_beq_eq in E. cbn in E. now subst.
  - intros I. exists (f, v). split; auto. apply filter_In. split; auto. now apply field_beq_eq.
Qed.
Lemma last_of_given f v p : last_of f p = Some v <-> last_given f v p.
Proof.
  unfold last_of, last_given, all_of. destruct (rev (map snd (filter (fun s => field_beq (fst s) f) (p_set p)))) as [|w l] eqn:R.
  - split; [discriminate|]. intros (a & b & E & _). exfalso. apply (f_equal (@rev _)) in R. rewrite rev_involutive in R. cbn [rev] in R.
    assert (I : In v (all_of f p)) by (apply all_of_in; rewrite E; apply in_or_app; right; now left). unfold all_of in I. rewrite R in I. destruct I.
  - assert (G : forall (l : list (field * bytes)) w t, rev (map snd (filter (fun s => field_beq (fst s) f) l)) = w :: t ->
       exists a b, l = a ++ (f, w) :: b /\ forall x, ~ In (f, x) b).
    { clear. intros l w t. revert w t. induction l as [|[g x] l IH] using rev_ind; intros w t H; [discriminate|].
      rewrite filter_app, map_app, rev_app_distr in H. cbn [filter fst] in H. destruct (field_beq g f) eqn:E; cbn [map rev app] in H.
      - injection H as <- _. apply field_beq_eq in E. subst g. exists l, []. auto.
      - destruct (IH _ _ H) as (a & b & -> & N). exists a, (b ++ [(g, x)]). rewrite <- app_assoc. split; auto.
        intros y I. apply in_app_or in I as [I|[I|[]]]; [now apply (N y)|]. injection I as -> ->. assert (field_beq f f = true) by now apply field_beq_eq. congruence. }
    split.
    + intros Q. injection Q as <-. eapply G; eauto.
    + intros (a & b & E & N). destruct (G _ _ _ R) as (a' & b' & E' & N'). rewrite E in E'. f_equal.
      clear - E' N N'. revert a' E'. induction a as [|x a IH]; intros [|y a'] E'; cbn [app] in E'.
      * now injection E' as ->.
      * injection E' as <- E'. exfalso. apply (N w). rewrite E'. apply in_or_app. right. now left.
      * injection E' as -> E'. exfalso. apply (N' v). rewrite <- E'. apply in_or_app. right. now left.
      * injection E' as -> E'. eauto.
Qed.
Lemma on_iff f p : on f p = true <-> switched f p.
Proof.
  unfold on, switched, value_of. rewrite <- last_of_given. destruct (last_of f p) as [v|]; [|split; discriminate].
  rewrite eqs_eq. split; [intros ->; auto|congruence].
Qed.
Lemma on_false f p : on f p = false <-> ~ switched f p.
Proof. rewrite <- on_iff. destruct (on f p); split; congruence. Qed.
Lemma value_ne f p : non_empty (value_of f p) = true <-> exists v, last_given f v p /\ v <> [].
Proof.
  unfold value_of. split.
  - destruct (last_of f p) as [v|] eqn:E; [|discriminate]. intros N. exists v. split; [now apply last_of_given|]. intros ->. discriminate.
  - intros (v & L & N). apply last_of_given in L. rewrite L. now destruct v.
Qed.
Lemma value_given f p v : last_given f v p -> value_of f p = v.
Proof. intros L. apply last_of_given in L. unfold value_of. now rewrite L. Qed.
Lemma value_e f p : non_empty (value_of f p) = false <-> forall v, last_given f v p -> v = [].
Proof.
  split.
  - intros N v L. apply value_given in L. rewrite L in N. now destruct v.
  - intros H. unfold value_of. destruct (last_of f p) as [v|] eqn:E; auto. apply last_of_given, H in E. now subst.
Qed.
Lemma debugging_iff p : debugging p = true <-> debug_asked p.
Proof.
  unfold debugging, debug_asked. split.
  - destruct (last_of FDebug p) as [v|] eqn:E; [|discriminate]. intros N. exists v. split; [now apply last_of_given|]. intros ->. discriminate.
  - intros (v & L & N). apply last_of_given in L. rewrite L. destruct (eqs v #"false") eqn:Q; auto. apply eqs_eq in Q. congruence.
Qed.
Lemma debugging_false p : debugging p = false <-> ~ debug_asked p.
Proof. rewrite <- debugging_iff. destruct (debugging p); split; congruence. Qed.
Lemma debug_run_iff c p : run_debug c p = true <-> debug_run c p.
Proof. unfold run_debug, debug_run. rewrite andb_true_iff, debugging_iff. destruct c; cbn; intuition congruence. Qed.
Lemma debug_test_iff c p : test_debug c p = true <-> debug_test c p.
Proof. unfold test_debug, debug_test. rewrite !andb_true_iff, debugging_iff, negb_true_iff, on_false. destruct c; cbn; intuition congruence. Qed.
Lemma debug_test_false c p : test_debug c p = false <-> ~ debug_test c p.
Proof. rewrite <- debug_test_iff. destruct (test_debug c p); split; congruence. Qed.
Lemma debug_mode c p : c = Build \/ c = Run \/ c = Test -> run_debug c p || test_debug c p || build_debug c p = debugging p.
Proof.
  unfold run_debug, test_debug, build_debug. intros [-> |[-> | ->]]; destruct (debugging p), (on FC p); reflexivity.
Qed.
Lemma makes_iff c p : cmd_eqb c Build || (cmd_eqb c Test && on FC p) = true <-> makes_binary c p.
Proof. unfold makes_binary. rewrite orb_true_iff, andb_true_iff, on_iff. destruct c; cbn; intuition congruence. Qed.

Definition optt (b : bool) (t : tok) : list tok := if b then [t] else [].
Definition toks (c : cmd) (e : setting) (p : parsed) : list tok :=
  let td := test_debug c p in
  optt (on FA p || e_changed e) (Bare #"-a") ++ optt (on FV p && negb td) (Bare #"-v") ++ optt (on FX p) (Bare #"-x") ++ optt (on FC p && negb td) (Bare #"-c") ++
  optt (non_empty (value_of FRun p) && negb td) (Pair #"-run" (value_of FRun p)) ++ optt (non_empty (e_overlay e)) (Pair #"-overlay" (e_overlay e)) ++
  optt (non_empty (e_mod e)) (Eq #"-mod" (e_mod e)) ++ optt (non_empty (e_modfile e)) (Pair #"-modfile" (e_modfile e)) ++
  optt (non_empty (value_of FTags p)) (Pair #"-tags" (value_of FTags p)) ++ map (Eq #"-gcflags") (all_of FGcflags p) ++
  optt (debugging p && negb (existsb (fun f => eqs f #"all=-N -l" || eqs f #"all=-l -N") (all_of FGcflags p))) (Eq #"-gcflags" #"all=-N -l") ++
  optt td (Bare #"-c") ++
  optt ((cmd_eqb c Build || (cmd_eqb c Test && on FC p)) && negb (debugging p) && on FNoBuildOutput p) (Pair #"-o" (e_session e ++ #"/discard.out")) ++
  optt (non_empty (final_output c e p)) (Pair #"-o" (final_output c e p)) ++ map Raw (all_of FBuildFlag p) ++ map Raw (e_linker e).
Lemma optt_words b t : flat_map words (optt b t) = opt b (words t). Proof. destruct b; cbn; now rewrite ?app_nil_r. Qed.
Lemma toks_words c e p : c = Build \/ c = Run \/ c = Test ->
  flat_map words (toks c e p) = 
  opt (on FA p || e_changed e) [#"-a"] ++ opt (on FV p && negb (test_debug c p)) [#"-v"] ++ opt (on FX p) [#"-x"] ++ opt (on FC p && negb (test_debug c p)) [#"-c"] ++
  opt (non_empty (value_of FRun p) && negb (test_debug c p)) [#"-run"; value_of FRun p] ++ opt (non_empty (e_overlay e)) [#"-overlay"; e_overlay e] ++
  opt (non_empty (e_mod e)) [#"-mod=" ++ e_mod e] ++ opt (non_empty (e_modfile e)) [#"-modfile"; e_modfile e] ++ opt (non_empty (value_of FTags p)) [#"-tags"; value_of FTags p] ++
  map (fun f => #"-gcflags=" ++ f) (all_of FGcflags p) ++
  opt (debugging p && negb (existsb (fun f => eqs f #"all=-N -l" || eqs f #"all=-l -N") (all_of FGcflags p))) [#"-gcflags=all=-N -l"] ++ opt (test_debug c p) [#"-c"] ++
  opt ((cmd_eqb c Build || (cmd_eqb c Test && on FC p)) && negb (debugging p) && on FNoBuildOutput p) [#"-o"; e_session e ++ #"/discard.out"] ++
  opt (non_empty (final_output c e p)) [#"-o"; final_output c e p] ++ all_of FBuildFlag p ++ e_linker e.
Proof.
  intros C. unfold toks. cbv zeta. rewrite !flat_map_app, !optt_words.
  assert (M1 : flat_map words (map (Eq #"-gcflags") (all_of FGcflags p)) = map (fun f => #"-gcflags=" ++ f) (all_of FGcflags p)).
  { induction (all_of FGcflags p) as [|x l IH]; auto. cbn [map flat_map]. now rewrite IH. }
  assert (M2 : forall l, flat_map words (map Raw l) = l) by (induction l as [|x l IH]; auto; cbn [map flat_map words app]; now rewrite IH).
  now rewrite M1, !M2.
Qed.
Lemma go_command_words c e p : c = Build \/ c = Run \/ c = Test ->
  fst (go_command c e p) = (if run_debug c p then #"build" else cmd_name c) :: flat_map words (toks c e p) ++
    (if run_debug c p then firstn 1 (p_remain p) else p_remain p) ++
    opt (cmd_eqb c Test && negb (length (p_test p) =? 0) && negb (test_debug c p)) (#"-args" :: p_test p).
Proof.
  intros C. rewrite toks_words by auto. unfold go_command. cbv zeta. cbn [fst]. rewrite debug_mode by auto. rewrite <- !app_assoc.
  destruct (run_debug c p); reflexivity.
Qed.
Lemma in_optt b t x : In x (optt b t) <-> b = true /\ x = t.
Proof. destruct b; cbn; intuition congruence. Qed.
Lemma ne_iff v : non_empty v = true <-> v <> []. Proof. destruct v; cbn; split; congruence. Qed.
Lemma final_iff c e p x : c = Build \/ c = Run \/ c = Test ->
  (non_empty (final_output c e p) = true /\ x = Pair #"-o" (final_output c e p) <->
   (exists v dir, x = Pair #"-o" (e_abs e v) /\ (makes_binary c p \/ debug_asked p) /\ (switched FNoBuildOutput p -> debug_asked p) /\ last_given FOutput v p /\ v <> [] /\
      last_given FProjectDir dir p /\ dir <> [] /\ e_abs e v <> []) \/
   (exists v, x = Pair #"-o" v /\ (makes_binary c p \/ debug_asked p) /\ (switched FNoBuildOutput p -> debug_asked p) /\ last_given FOutput v p /\ v <> [] /\
      (forall dir, last_given FProjectDir dir p -> dir = [])) \/
   (x = Pair #"-o" (e_session e ++ #"/debug.bin") /\ debug_asked p /\ (forall v, last_given FOutput v p -> v = []))).
Proof.
  intros C. unfold final_output. cbv zeta. rewrite debug_mode by auto.
  destruct (cmd_eqb c Build || cmd_eqb c Test && on FC p || debugging p) eqn:B.
  2:{ split; [intros [H _]; discriminate|]. apply orb_false_elim in B as [B1 B2]. intros H. exfalso.
      assert (~ makes_binary c p) by (rewrite <- makes_iff, B1; discriminate). apply debugging_false in B2.
      destruct H as [(v & d & _ & [H|H] & _)|[(v & _ & [H|H] & _)|(_ & H & _)]]; auto. }
  assert (B' : makes_binary c p \/ debug_asked p) by (apply orb_prop in B as [B|B]; [left; now apply makes_iff|right; now apply debugging_iff]).
  destruct (negb (debugging p) && on FNoBuildOutput p) eqn:N.
  { apply andb_prop in N as [N1 N2]. apply negb_true_iff, debugging_false in N1. apply on_iff in N2. split; [intros [H _]; discriminate|].
    intros [(v & d & _ & _ & H & _)|[(v & _ & _ & H & _)|(_ & H & _)]]; exfalso; auto. }
  assert (N' : switched FNoBuildOutput p -> debug_asked p).
  { intros S. apply on_iff in S. rewrite S, andb_true_r in N. apply negb_false_iff in N. now apply debugging_iff. }
  destruct (non_empty (value_of FOutput p)) eqn:O.
  - pose proof (proj1 (value_ne _ _) O) as (v & Lv & Nv). rewrite (value_given _ _ _ Lv) in *.
    assert (U : forall v', last_given FOutput v' p -> v' = v) by (intros v' H; apply value_given in H; apply value_given in Lv; congruence).
    destruct (non_empty (value_of FProjectDir p)) eqn:D.
    + pose proof (proj1 (value_ne _ _) D) as (d & Ld & Nd). rewrite ne_iff. split.
      * intros [Z ->]. left. exists v, d. auto 10.
      * intros [(v' & d' & -> & _ & _ & H & _ & _ & _ & Z)|[(v' & -> & _ & _ & H & _ & Z)|(-> & _ & H)]].
        -- apply U in H. subst. auto.
        -- exfalso. apply Nd. now apply Z.
        -- exfalso. apply Nv. now apply H.
    + pose proof (proj1 (value_e _ _) D) as D'. rewrite ne_iff. split.
      * intros [Z ->]. right. left. exists v. auto 10.
      * intros [(v' & d' & -> & _ & _ & H & _ & Z & Z' & _)|[(v' & -> & _ & _ & H & _ & Z)|(-> & _ & H)]].
        -- exfalso. apply Z'. now apply D'.
        -- apply U in H. now subst.
        -- exfalso. apply Nv. now apply H.
  - pose proof (proj1 (value_e _ _) O) as O'. destruct (debugging p) eqn:G.
    + apply debugging_iff in G. rewrite ne_iff. split.
      * intros [_ ->]. auto.
      * intros [(v' & d' & _ & _ & _ & H & Z & _)|[(v' & _ & _ & _ & H & Z & _)|(-> & _)]]; [exfalso; auto..|]. split; auto. destruct (e_session e); discriminate.
    + apply debugging_false in G. split; [intros [H _]; discriminate|].
      intros [(v' & d' & _ & _ & _ & H & Z & _)|[(v' & _ & _ & _ & H & Z & _)|(_ & H & _)]]; exfalso; auto.
Qed.

(** The command: the go command (build, for a program to be debugged), exactly the flags that
    were asked for, with their last values and all -gcflags and --build-flag in order, then
    the forwarded words in order, then, after -args, the arguments of the test. *)
Theorem C59_go_command :
  forall c e p, c = Build \/ c = Run \/ c = Test ->
    exists flags,
      (~ debug_run c p -> ~ debug_test c p ->
        fst (go_command c e p) = cmd_name c :: flat_map words flags ++ p_remain p ++ (match c, p_test p with Test, _ :: _ => #"-args" :: p_test p | _, _ => [] end)) /\
      (debug_test c p -> fst (go_command c e p) = #"test" :: flat_map words flags ++ p_remain p) /\
      (debug_run c p -> fst (go_command c e p) = #"build" :: flat_map words flags ++ firstn 1 (p_remain p)) /\
      (forall t, In t flags <-> wanted c e p t) /\
      (~ debug_asked p -> filter is_gc flags = map (Eq #"-gcflags") (given FGcflags p)) /\
      filter is_raw flags = map Raw (given FBuildFlag p ++ e_linker e).
Proof.
  change given with all_of.
  intros c e p C. exists (toks c e p). rewrite go_command_words by auto.
  split; [|split; [|split; [|split; [|split]]]].
  - intros R T. assert (R' : run_debug c p = false) by (destruct (run_debug c p) eqn:X; auto; apply debug_run_iff in X; contradiction).
    apply debug_test_false in T. rewrite R', T. destruct C as [-> |[-> | ->]]; cbn [cmd_eqb andb opt]; auto. destruct (p_test p); reflexivity.
  - intros T. assert (R' : run_debug c p = false). { destruct (run_debug c p) eqn:X; auto. apply debug_run_iff in X as [_ X]. destruct T as (_ & T & _). congruence. }
    pose proof T as (_ & T1 & _). apply debug_test_iff in T. rewrite R', T, T1. cbn [negb]. now rewrite !andb_false_r, app_nil_r.
  - intros R. pose proof R as [_ R1]. apply debug_run_iff in R. rewrite R, R1. cbn [cmd_eqb andb opt]. now rewrite app_nil_r.
  - intros t. unfold toks. cbv zeta. rewrite !in_app_iff, !in_optt, (final_iff c e p t C), !in_map_iff.
    rewrite !andb_true_iff, !orb_true_iff, !negb_true_iff, !andb_true_iff, !on_iff, !value_ne, !ne_iff, debug_test_false, debug_test_iff, debugging_iff, debugging_false.
    assert (M : cmd_eqb c Build = true \/ (cmd_eqb c Test = true /\ switched FC p) <-> makes_binary c p).
    { rewrite <- makes_iff, orb_true_iff, andb_true_iff, on_iff. reflexivity. }
    rewrite M. clear M.
    assert (G : existsb (fun f => eqs f #"all=-N -l" || eqs f #"all=-l -N") (all_of FGcflags p) = false <->
      ~ In (FGcflags, #"all=-N -l") (p_set p) /\ ~ In (FGcflags, #"all=-l -N") (p_set p)).
    { rewrite <- !all_of_in. clear. induction (all_of FGcflags p) as [|x l IH]; cbn [existsb In]; [tauto|]. rewrite !orb_false_iff, IH.
      assert (Q : forall n, eqs x n = false <-> x <> n) by (intros n; rewrite <- eqs_eq; destruct (eqs x n); split; congruence).
      rewrite !Q. tauto. }
    rewrite G. clear G C. split.
    + intros H.
      repeat match goal with H : _ \/ _ |- _ => destruct H as [H|H] | H : _ /\ _ |- _ => destruct H | H : exists _, _ |- _ => destruct H end; subst.
      all: try (match goal with H : last_given ?f ?v _ |- wanted _ _ _ (Pair _ (value_of ?f _)) => rewrite (value_given _ _ _ H) end).
      all: try solve [econstructor; eauto].
      * apply w_gcflags. now apply all_of_in.
      * apply w_raw. left. now apply all_of_in.
    + intros H. inversion H; subst; clear H.
      all: repeat match goal with H : last_given ?f ?v _ |- context [value_of ?f _] => rewrite (value_given _ _ _ H) end.
      * left. auto.
      * do 1 right. left. auto.
      * do 2 right. left. auto.
      * do 3 right. left. auto.
      * do 11 right. left. auto.
      * do 4 right. left. eauto.
      * do 5 right. left. auto.
      * do 6 right. left. auto.
      * do 7 right. left. auto.
      * do 8 right. left. eauto.
      * do 9 right. left. eexists. split; [reflexivity|]. now apply all_of_in.
      * do 10 right. left. auto.
      * do 12 right. left. auto.
      * do 13 right. left. left. eauto 12.
      * do 13 right. left. right. left. eauto 12.
      * do 13 right. left. right. right. auto.
      * match goal with H : _ \/ _ |- _ => destruct H as [H|H] end; [do 14 right; left|do 15 right]; eexists; (split; [reflexivity|]); auto. now apply all_of_in.
  - intros ND. apply debugging_false in ND. unfold toks. cbv zeta. rewrite ND. cbn [andb optt app].
    assert (X : forall b t, is_gc t = false -> filter is_gc (optt b t) = []) by (intros [] t Z; cbn; rewrite ?Z; auto).
    assert (R : forall l, filter is_gc (map Raw l) = []) by (induction l; auto).
    assert (Y : forall l, filter is_gc (map (Eq #"-gcflags") l) = map (Eq #"-gcflags") l) by (induction l as [|y l IH]; auto; cbn [map filter]; change (is_gc (Eq #"-gcflags" y)) with true; cbv iota; now rewrite IH).
    rewrite !filter_app, !X, !R, Y by reflexivity. cbn [app]. now rewrite app_nil_r.
  - unfold toks. cbv zeta.
    assert (X : forall b t, is_raw t = false -> filter is_raw (optt b t) = []) by (intros [] t Z; cbn; rewrite ?Z; auto).
    assert (Y : forall l, filter is_raw (map (Eq #"-gcflags") l) = []) by (induction l; auto).
    assert (R : forall l, filter is_raw (map Raw l) = map Raw l) by (induction l as [|y l IH]; auto; cbn [map filter is_raw]; now rewrite IH).
    rewrite !filter_app, !X, !R, Y by reflexivity. cbn [app]. now rewrite map_app.
Qed.
Print Assumptions C59_go_command.
(** What a program or test that is debugged is given. *)
Theorem C59_program_arguments :
  forall c e p, c = Build \/ c = Run \/ c = Test ->
    (debug_run c p -> snd (go_command c e p) = given FProgFlag p ++ skipn 1 (p_remain p)) /\
    (debug_test c p ->
      exists v r, snd (go_command c e p) = v ++ r ++ given FProgFlag p ++ p_test p /\
        ((switched FV p /\ v = [#"-test.v"]) \/ (~ switched FV p /\ v = [])) /\
        ((exists x, last_given FRun x p /\ x <> [] /\ r = [#"-test.run"; x]) \/ ((forall x, last_given FRun x p -> x = []) /\ r = []))).
Proof.
  change given with all_of.
  intros c e p C. split.
  - intros R. pose proof R as [_ ->]. assert (T : test_debug Run p = false) by (apply debug_test_false; intros (_ & X & _); discriminate).
    apply debug_run_iff in R. unfold go_command. cbv zeta. cbn [snd]. rewrite R, T. rewrite !andb_false_r. cbn [opt app]. now rewrite app_nil_r.
  - intros T. assert (R' : run_debug c p = false). { destruct (run_debug c p) eqn:X; auto. apply debug_run_iff in X as [_ X]. destruct T as (_ & T & _). congruence. }
    pose proof T as (_ & T1 & _). apply debug_test_iff in T. unfold go_command. cbv zeta. cbn [snd]. rewrite R', T, T1. rewrite !andb_true_r.
    eexists _, _. split; [reflexivity|]. split.
    + destruct (on FV p) eqn:V; cbn [opt]; [left|right]; split; auto; [now apply on_iff|now apply on_false].
    + destruct (non_empty (value_of FRun p)) eqn:V; cbn [opt].
      * left. pose proof (proj1 (value_ne _ _) V) as (x & L & N). exists x. rewrite (value_given _ _ _ L). auto.
      * right. split; auto. now apply value_e.
Qed.
Print Assumptions C59_program_arguments.
Definition plain_setting : setting := {| e_changed := false; e_overlay := []; e_mod := []; e_modfile := []; e_linker := []; e_session := #"/s"; e_abs := fun p => p |}.
(** xgo test -o x without -c: the -o does not reach go. *)
Theorem C59_test_output_refuted :
  ~ (forall args p v e, parse_options Test args = Parsed p -> last_given FOutput v p -> v <> [] -> In #"-o" (fst (go_command Test e p))).
Proof.
  intros H. specialize (H [#"-o"; #"x"] {| p_set := [(FTrapStdlib, #"true"); (FOutput, #"x")]; p_remain := []; p_test := [] |} #"x" plain_setting).
  assert (I := H ltac:(vm_compute; reflexivity) (ex_intro _ [(FTrapStdlib, #"true")] (ex_intro _ [] (conj eq_refl (fun _ (f : In _ []) => f)))) ltac:(discriminate)).
  vm_compute in I. destruct I as [I|[]]. discriminate I.
Qed.
Print Assumptions C59_test_output_refuted.
(** xgo run --debug with a go flag before the package: the flag is taken for the package, and
    the package for an argument of the program. *)
Theorem C59_debug_package_refuted :
  ~ (forall args p e w, parse_options Run args = Parsed p -> debug_run Run p -> In w (p_remain p) -> has_prefix w #"./" = true -> In w (fst (go_command Run e p))).
Proof.
  intros H. specialize (H [#"--debug"; #"-race"; #"./a"] {| p_set := [(FDebug, [])]; p_remain := [#"-race"; #"./a"]; p_test := [] |} plain_setting #"./a").
  assert (I := H ltac:(vm_compute; reflexivity)).
  assert (D : debug_run Run {| p_set := [(FDebug, [])]; p_remain := [#"-race"; #"./a"]; p_test := [] |}).
  { split; auto. exists []. split; [|discriminate]. exists [], []. split; auto. }
  specialize (I D ltac:(cbn; auto) eq_refl). vm_compute in I. repeat (destruct I as [I|I]; [discriminate I|]). destruct I.
Qed.
Print Assumptions C59_debug_package_refuted.
Example C59_example :
  forall p, parse_options Test [#"-v"; #"-tags"; #"a"; #"-gcflags=all=-l"; #"--tags=b"; #"--gcflags"; #"x=-N"; #"./..."; #"-count=1"; #"-c"; #"-o"; #"t"; #"-args"; #"-v"] = Parsed p ->
    fst (go_command Test plain_setting p) =
    [#"test"; #"-v"; #"-c"; #"-tags"; #"b"; #"-gcflags=all=-l"; #"-gcflags=x=-N"; #"-o"; #"t"; #"./..."; #"-count=1"; #"-args"; #"-v"].
Proof. intros p H. vm_compute in H. injection H as <-. vm_compute. reflexivity. Qed.

(** ** C60: XGO_FLAGS *)
Definition space (c : ascii) : Prop := c = " "%char \/ c = "009"%char \/ c = "010"%char \/ c = "013"%char.
(** The words of a string: the maximal non-empty stretches without white space. *)
Inductive words_of : bytes -> list bytes -> Prop :=
| wo_nil : words_of [] []
| wo_space c s ws : space c -> words_of s ws -> words_of (c :: s) ws
| wo_word w s ws : w <> [] -> Forall (fun c => ~ space c) w -> (s = [] \/ exists c r, s = c :: r /\ space c) -> words_of s ws -> words_of (w ++ s) (w :: ws).
Lemma space_iff c : is_flag_space c = true <-> space c.
Proof. unfold is_flag_space, space. cbn [existsb]. rewrite !orb_true_iff, !eqc_eq. intuition congruence. Qed.
Lemma xgo_flags_sound s : forall cur, Forall (fun c => ~ space c) cur -> words_of (cur ++ s) (xgo_flags_from s cur).
Proof.
  induction s as [|c s IH]; intros cur N; cbn [xgo_flags_from].
  - rewrite app_nil_r. destruct cur as [|x cur]; [constructor|]. rewrite <- (app_nil_r (x :: cur)) at 1. apply wo_word; auto; [discriminate|constructor].
  - destruct (is_flag_space c) eqn:S.
    + apply space_iff in S. specialize (IH [] (Forall_nil _)). cbn [app] in IH. destruct cur as [|x cur]; [now apply wo_space|].
      apply wo_word; auto; [discriminate|eauto|now apply wo_space].
    + assert (~ space c) by (rewrite <- space_iff; congruence). specialize (IH (cur ++ [c])). rewrite <- app_assoc in IH. apply IH. apply Forall_app. auto.
Qed.
Lemma xgo_flags_word w s : Forall (fun c => ~ space c) w -> forall cur, xgo_flags_from (w ++ s) cur = xgo_flags_from s (cur ++ w).
Proof.
  induction 1 as [|c w N F IH]; intros cur; [now rewrite app_nil_r|]. cbn [app xgo_flags_from].
  destruct (is_flag_space c) eqn:S; [apply space_iff in S; contradiction|]. rewrite IH, <- app_assoc. reflexivity.
Qed.
Theorem C60_xgo_flags_words : forall s ws, parse_xgo_flags s = ws <-> words_of s ws.
Proof.
  intros s ws. split.
  - intros <-. apply (xgo_flags_sound s []). constructor.
  - unfold parse_xgo_flags. induction 1 as [|c s ws S W IH|w s ws Ne N B W IH]; auto.
    + cbn [xgo_flags_from]. apply space_iff in S. now rewrite S.
    + rewrite xgo_flags_word by auto. cbn [app]. destruct B as [->|(c & r & -> & S)].
      * cbn [xgo_flags_from] in *. subst ws. destruct w; [congruence|reflexivity].
      * apply space_iff in S. cbn [xgo_flags_from] in *. rewrite S in *. rewrite IH. destruct w; [congruence|reflexivity].
Qed.
Print Assumptions C60_xgo_flags_words.
(** They are read before the arguments of the command; xgo exec ignores them. *)
Theorem C60_flags_before_arguments :
  forall c ws args, Forall (fun w => w <> [] /\ Forall (fun x => ~ space x) w) ws ->
    actual_args c (join #" " ws) args = if cmd_eqb c Exec then args else ws ++ args.
Proof.
  intros c ws args H. unfold actual_args. destruct (cmd_eqb c Exec); auto. f_equal. apply C60_xgo_flags_words.
  induction H as [|w ws [Ne N] H IH]; [constructor|]. destruct ws as [|w' ws].
  - cbn [join]. rewrite <- (app_nil_r w) at 1. apply wo_word; auto; try exact wo_nil.
  - cbn [join]. apply wo_word; auto; [right; eexists _, _; split; [reflexivity|now left]|]. apply wo_space; [now left|exact IH].
Qed.
Print Assumptions C60_flags_before_arguments.
(** A request for coverage is noticed when it is spelled with one dash in the arguments. *)
Theorem C60_coverage_partial :
  forall args, may_have_cover args = true <-> exists r, In (#"-cover" ++ r) args.
Proof.
  intros args. unfold may_have_cover. rewrite existsb_exists. split.
  - intros (w & I & P). apply has_prefix_iff in P as [r ->]. eauto.
  - intros [r I]. exists (#"-cover" ++ r). split; [exact I|]. apply has_prefix_iff. now exists r.
Qed.
Print Assumptions C60_coverage_partial.
(** Go takes --cover as well, and XGO_FLAGS may carry it; neither is noticed. *)
Theorem C60_coverage_refuted :
  ~ (forall c flags args r, In (#"-cover" ++ r) (actual_args c flags args) -> may_have_cover args = true) /\
  ~ (forall args r, In (#"--cover" ++ r) args -> may_have_cover args = true).
Proof.
  split; intros H.
  - specialize (H Test #"-cover" [#"./a"] []). vm_compute in H. specialize (H (or_introl eq_refl)). discriminate H.
  - specialize (H [#"--cover"] []). vm_compute in H. specialize (H (or_introl eq_refl)). discriminate H.
Qed.
Print Assumptions C60_coverage_refuted.
Example C60_example : parse_xgo_flags (#" -v  --trap=a " ++ ["009"; "010"]%char ++ #"-tags b") = [#"-v"; #"--trap=a"; #"-tags"; #"b"].
Proof. vm_compute. reflexivity. Qed.

(** ** C61: the packages among the forwarded arguments *)
(** Flags as go would read them: with "=", without a value, or with the next word as value. *)
Inductive go_flags (zero : bytes -> Prop) : list bytes -> Prop :=
| gf_nil : go_flags zero []
| gf_eq w l : dashed w -> In "="%char w -> go_flags zero l -> go_flags zero (w :: l)
| gf_zero w l : (w = #"-" ++ skipn 1 w \/ w = #"--" ++ skipn 2 w) -> zero w -> ~ In "="%char w -> w <> #"-args" -> go_flags zero l -> go_flags zero (w :: l)
| gf_value w v l : dashed w -> ~ zero w -> ~ In "="%char w -> w <> #"-args" -> go_flags zero l -> go_flags zero (w :: v :: l).
(** The flags the code knows to have no value. *)
Definition listed (w : bytes) : Prop :=
  In w (zero_arg ++ map (fun n => "-"%char :: n) zero_arg).
Lemma listed_iff w : dashed w -> (existsb (eqs (if has_prefix w #"--" then skipn 1 w else w)) zero_arg = true <-> listed w).
Proof.
  intros [r ->]. unfold listed. rewrite in_app_iff. split.
  - intros H. apply existsb_exists in H as (n & I & E). apply eqs_eq in E. destruct (has_prefix ("-"%char :: r) #"--") eqn:P.
    + right. cbn [skipn] in E. subst n. now apply (in_map (fun n => "-"%char :: n)).
    + left. now subst n.
  - intros H. apply existsb_exists. destruct (has_prefix ("-"%char :: r) #"--") eqn:P.
    + destruct H as [H|H].
      * exfalso. unfold zero_arg in H. repeat (destruct H as [H|H]; [rewrite <- H in P; discriminate P|]). destruct H.
      * apply in_map_iff in H as (n & E & I). injection E as ->. exists r. split; auto. cbn [skipn]. apply eqs_refl.
    + destruct H as [H|H]; [exists ("-"%char :: r); split; auto; apply eqs_refl|]. exfalso. apply in_map_iff in H as (n & E & I). injection E as ->.
      unfold zero_arg in I. repeat (destruct I as [<-|I]; [discriminate P|]). destruct I.
Qed.
Theorem C61_packages_partial :
  forall flags pkg pkgs, go_flags listed flags -> ~ dashed pkg -> get_pkg_args (flags ++ pkg :: pkgs) = pkg :: pkgs.
Proof.
  intros flags pkg pkgs G D. apply not_dashed in D.
  assert (X : forall w l, dashed w -> w <> #"-args" -> get_pkg_args (w :: l) = if containsc "="%char w then get_pkg_args l
     else if existsb (eqs (if has_prefix w #"--" then skipn 1 w else w)) zero_arg then get_pkg_args l else match l with [] => [] | _ :: l' => get_pkg_args l' end).
  { intros w l W A. cbn [get_pkg_args]. rewrite (proj1 (dashed_iff w) W). cbn [negb]. destruct (eqs w #"-args") eqn:E; [apply eqs_eq in E; contradiction|]. reflexivity. }
  assert (C : forall w, ~ In "="%char w -> containsc "="%char w = false) by (intros w N; destruct (containsc "="%char w) eqn:E; auto; apply containsc_in in E; contradiction).
  induction G as [|w l W I G IH|w l W Z N A G IH|w v l W Z N A G IH]; cbn [app].
  - cbn [get_pkg_args]. now rewrite D.
  - rewrite X; auto; [|intros ->; cbn in I; repeat (destruct I as [I|I]; [discriminate|]); destruct I]. apply containsc_in in I. now rewrite I.
  - assert (W' : dashed w) by (destruct W as [W|W]; rewrite W; eexists; reflexivity). rewrite X, C by auto. apply listed_iff in Z; auto. now rewrite Z.
  - rewrite X, C by auto. destruct (existsb (eqs (if has_prefix w #"--" then skipn 1 w else w)) zero_arg) eqn:Q; [apply listed_iff in Q; auto; contradiction|exact IH].
Qed.
Print Assumptions C61_packages_partial.
(** -short takes no value but is not listed, so the package after it is lost; and flags after
    the packages are taken for packages. *)
Theorem C61_packages_refuted :
  ~ (forall flags pkg, go_flags (fun w => listed w \/ w = #"-short") flags -> ~ dashed pkg -> get_pkg_args (flags ++ [pkg]) = [pkg]) /\
  ~ (forall flags pkgs, Forall (fun w => ~ dashed w) pkgs -> go_flags listed flags -> get_pkg_args (pkgs ++ flags) = pkgs).
Proof.
  split; intros H.
  - specialize (H [#"-short"] #"./a"). vm_compute in H. enough ([] = [#"./a"]) by discriminate. apply H.
    + apply gf_zero; [now left|now right| |discriminate|constructor]. cbn. intuition discriminate.
    + apply not_dashed. reflexivity.
  - specialize (H [#"-count=1"] [#"./a"]). vm_compute in H. enough ([#"./a"; #"-count=1"] = [#"./a"]) by discriminate. apply H.
    + constructor; [|constructor]. apply not_dashed. reflexivity.
    + apply gf_eq; [exists #"count=1"; reflexivity|cbn; tauto|constructor].
Qed.
Print Assumptions C61_packages_refuted.
Example C61_example : get_pkg_args [#"-race"; #"-count"; #"1"; #"--cover"; #"-timeout=1s"; #"./a"; #"./b"] = [#"./a"; #"./b"].
Proof. vm_compute. reflexivity. Qed.

(** ** C62: file patches *)
(** Without the flag: from go1.25 on.  Asked for: from go1.24 on, refused otherwise.  Declined:
    up to go1.26, refused afterwards. *)
Theorem C62_file_patches :
  forall explicit version,
    let at_least n := exists minor, version = Some (1, minor) /\ n <= minor in
    (forall b, resolve_use_file_patches explicit version = Some b <->
      match explicit with
      | None => b = true /\ at_least 25 \/ b = false /\ ~ at_least 25
      | Some true => b = true /\ at_least 24
      | Some false => b = false /\ ~ at_least 27
      end).
Proof.
  intros explicit version at_least b. subst at_least. unfold resolve_use_file_patches.
  assert (X : forall n, (exists minor, version = Some (1, minor) /\ n <= minor) <-> match version with Some (maj, min) => (maj =? 1) && (n <=? min) = true | None => False end).
  { intros n. destruct version as [[maj min]|]; [|split; [intros (? & ? & _); discriminate|intros []]]. rewrite andb_true_iff, Nat.eqb_eq, Nat.leb_le. split.
    - intros (m & E & L). injection E as -> ->. auto.
    - intros [-> L]. eauto. }
  destruct explicit as [[|]|]; rewrite X; destruct version as [[maj min]|]; try (split; intuition congruence).
  - destruct ((maj =? 1) && (24 <=? min)); split; intuition congruence.
  - destruct ((maj =? 1) && (26 <? min)) eqn:E; change (26 <? min) with (27 <=? min) in E; rewrite E; split; intuition congruence.
  - destruct ((maj =? 1) && (25 <=? min)); split; intuition congruence.
Qed.
Print Assumptions C62_file_patches.
Example C62_example : resolve_use_file_patches (Some false) (Some (1, 27)) = None /\ resolve_use_file_patches None (Some (1, 25)) = Some true.
Proof. split; reflexivity. Qed.
