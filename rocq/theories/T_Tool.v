(** * `xgo tool` (C129) *)
From Coq Require Import Ascii String List Arith Bool Lia.
From Verif Require Import M_Str P_Str M_PathName M_Shadow M_Tool T_Shadow.
Import ListNotations.
Open Scope nat_scope.
Open Scope list_scope.

(** ** Specification *)
Definition builtins : list bytes := [#"help"; #"-h"; #"--help"; #"list"; #"trace"; #"coverage"; #"test-explorer"].
(** The name of a file: one component of a path. *)
Definition name (t : bytes) : Prop := t <> [] /\ t <> #"." /\ t <> #".." /\ ~ In slash t.

(** ** Names *)
Lemma trim_id r c x : r = c :: x -> c <> slash -> trim_slashes r = r.
Proof. intros -> N. cbn. apply eqc_neq in N. now rewrite N. Qed.
Lemma base_name t : name t -> Base t = t.
Proof.
  intros (A & _ & _ & N). unfold Base. destruct t as [|c0 t0] eqn:T; [congruence|]. rewrite <- T in *.
  assert (R : trim_slashes (rev t) = rev t). { destruct (rev t) as [|c r] eqn:E; [reflexivity|]. apply (trim_id _ c r eq_refl). intros ->. apply N. apply in_rev. rewrite E. now left. }
  rewrite R, rev_involutive. rewrite T at 1. rewrite <- T. now rewrite cut_last_none.
Qed.
Lemma base_noslash t : Base t = t -> t = #"/" \/ (t <> [] /\ ~ In slash t).
Proof.
  unfold Base. destruct t as [|c0 t0] eqn:T; [discriminate|]. rewrite <- T. destruct (rev (trim_slashes (rev t))) as [|d q] eqn:R; [intros <-; now left|].
  intros H. right. split; [subst; discriminate|]. destruct (cut_last slash (d :: q)) as [[a b]|] eqn:C.
  - apply cut_last_sound in C as [_ C]. congruence.
  - apply cut_last_none_inv in C. now rewrite H in C.
Qed.
Lemma split_plain cs : plain cs -> cs <> [] -> split slash (spell cs) = [] :: cs.
Proof. intros P N. unfold spell. cbn [split]. rewrite eqc_refl. rewrite split_join; [reflexivity|exact N|now apply plain_slash]. Qed.
Lemma split_mid a b : split slash (a ++ [slash] ++ b) = split slash a ++ split slash b.
Proof.
  induction a as [|x a IH]; cbn [app split]; [now rewrite eqc_refl|]. cbn [app] in IH. destruct (eqc x slash); [rewrite IH; reflexivity|]. rewrite IH. destruct (split slash a) as [|h t] eqn:E; [destruct a as [|y a]; [discriminate|]; cbn in E; destruct (eqc y slash); [discriminate|destruct (split slash a); discriminate]|reflexivity].
Qed.
Lemma clean_app l m at_ : clean_onto at_ (l ++ m) = clean_onto (clean_onto at_ l) m.
Proof. revert at_. induction l as [|c l IH]; intros at_; [reflexivity|]. cbn [app clean_onto]. destruct (eqs c [] || eqs c #"."); [apply IH|]. destruct (eqs c #".."); apply IH. Qed.
Lemma comps_mid a b : comps (a ++ [slash] ++ b) = clean_onto (comps a) (split slash b).
Proof. unfold comps. now rewrite split_mid, clean_app. Qed.
Lemma name_plain t : name t -> plain [t]. Proof. repeat constructor; apply H. Qed.
Lemma split_name t : ~ In slash t -> split slash t = [t].
Proof. intros N. change t with (join [slash] [t]) at 1. apply split_join; [discriminate|repeat constructor; exact N]. Qed.
Lemma abs_app a b : IsAbs a = true -> IsAbs (a ++ b) = true. Proof. unfold IsAbs. destruct a as [|c a]; [discriminate|]. auto. Qed.
Lemma join_abs a t : IsAbs a = true -> name t -> Join a t = spell (comps a ++ [t]).
Proof. intros A N. unfold Join, Clean. rewrite (abs_app a _ A), comps_mid, split_name by apply N. now rewrite (clean_on [t] (name_plain t N)). Qed.
Lemma dir_abs d n : IsAbs (d ++ [slash] ++ n) = true -> ~ In slash n -> DirOf (d ++ [slash] ++ n) = spell (comps d).
Proof.
  intros A N. unfold DirOf. change (d ++ [slash] ++ n) with (d ++ slash :: n) in *. rewrite cut_last_some by exact N. unfold Clean.
  assert (E : IsAbs (d ++ [slash]) = true) by (destruct d as [|c d]; [reflexivity|exact A]). rewrite E. f_equal. change [slash] with ([slash] ++ []). rewrite comps_mid. reflexivity.
Qed.
Lemma join_home h t : IsAbs h = true -> name t -> Join h (#".xgo/bin/" ++ t) = spell (comps h ++ [#".xgo"; #"bin"; t]).
Proof.
  intros A N. unfold Join, Clean. rewrite (abs_app h _ A), comps_mid. f_equal. change (#".xgo/bin/" ++ t) with (#".xgo" ++ [slash] ++ #"bin" ++ [slash] ++ t). rewrite !split_mid, (split_name t) by apply N.
  change (split slash #".xgo") with [#".xgo"]. change (split slash #"bin") with [#"bin"]. cbn [app]. apply clean_on. constructor; [|constructor; [|exact (name_plain t N)]]; repeat split; try discriminate; intros I; cbn in I; decompose [or] I; try discriminate; tauto.
Qed.
Lemma slash_spell cs : containsc slash (spell cs) = true. Proof. reflexivity. Qed.

Section C129.
  Variable stat : bytes -> kind.
  Variable home : option bytes.
  Variable look : bytes -> option bytes.
  Notation handleTool := (handleTool stat home look).
  (** ** C129 *)
  (** The name of a tool of xgo always means that tool, with the arguments that follow. *)
  Theorem C129_builtin (argv0 : bytes) (r : list bytes) : handleTool argv0 [] = Help /\ (forall t, In t [#"help"; #"-h"; #"--help"] -> handleTool argv0 (t :: r) = Help)
    /\ handleTool argv0 (#"list" :: r) = ListTools /\ handleTool argv0 (#"trace" :: r) = Trace r /\ handleTool argv0 (#"coverage" :: r) = Coverage r /\ handleTool argv0 (#"test-explorer" :: r) = TestExplorer r.
  Proof. split; [reflexivity|]. split; [intros t [<-|[<-|[<-|[]]]]; reflexivity|]. repeat split; reflexivity. Qed.
  Lemma other argv0 t r : ~ In t builtins -> handleTool argv0 (t :: r) = tryHandleTool stat home look argv0 t r.
  Proof.
    intros N. assert (F : forall b, In b builtins -> eqs t b = false) by (intros b I; apply eqs_false; congruence). unfold M_Tool.handleTool.
    rewrite (F #"help"), (F #"-h"), (F #"--help"), (F #"list"), (F #"trace"), (F #"coverage"), (F #"test-explorer") by (cbn [In builtins]; tauto). reflexivity.
  Qed.
  (** xgo was called by an absolute path, as the file [x] of the directory [d]. Any other name runs the program
      of that name beside xgo or, if there is none, in ~/.xgo/bin, with the arguments that follow; if there is
      none in either nothing is run. *)
  Theorem C129_runs_partial (d x h t : bytes) (r : list bytes) : IsAbs (d ++ #"/" ++ x) = true -> name x -> home = Some h -> IsAbs h = true -> ~ In t builtins -> name t -> t <> x ->
    let beside := spell (comps d ++ [t]) in let at_home := spell (comps h ++ [#".xgo"; #"bin"; t]) in
    (stat beside = AFile -> handleTool (d ++ #"/" ++ x) (t :: r) = Program beside r)
    /\ (stat beside = Missing \/ stat beside = ADir -> stat at_home = AFile -> handleTool (d ++ #"/" ++ x) (t :: r) = Program at_home r)
    /\ (stat beside <> AFile -> stat at_home <> AFile -> handleTool (d ++ #"/" ++ x) (t :: r) = Unknown).
  Proof.
    intros A X H HA NB N NX. cbv zeta. rewrite other by exact NB. unfold tryHandleTool. change #"/" with [slash] in *. rewrite base_name, eqs_refl by exact N. cbn [negb].
    assert (BX : Base (d ++ [slash] ++ x) = x).
    { unfold Base. destruct (d ++ [slash] ++ x) as [|c0 p0] eqn:T; [destruct d; discriminate|]. rewrite <- T. destruct X as (X1 & _ & _ & X2).
      assert (R : trim_slashes (rev (d ++ [slash] ++ x)) = rev (d ++ [slash] ++ x)). { rewrite !rev_app_distr. destruct (rev x) as [|c q] eqn:E; [apply (f_equal (@rev ascii)) in E; rewrite rev_involutive in E; exfalso; exact (X1 E)|]. cbn [app]. eapply trim_id; [reflexivity|]. intros ->. apply X2, in_rev. rewrite E. now left. }
      rewrite R, rev_involutive. rewrite T. cbn iota. rewrite <- T. change (d ++ [slash] ++ x) with (d ++ slash :: x). now rewrite cut_last_some. }
    rewrite BX. assert (E : eqs t x = false) by now apply eqs_false. rewrite E, H. rewrite dir_abs by (auto; apply X). rewrite join_abs by (auto; reflexivity). rewrite comps_spell by apply comps_plain. rewrite join_home by auto.
    unfold command. rewrite !slash_spell. repeat split.
    - now intros ->.
    - now intros [-> | ->] ->.
    - intros F G. destruct (stat (spell (comps d ++ [t]))); try reflexivity; [congruence| |]; destruct (stat (spell (comps h ++ _))); congruence.
  Qed.
  (** A name that is no file name, or that of xgo itself, runs nothing: xgo tool leaves its two directories by no name
      (a path that ends in a dot, two dots or a slash is no file). *)
  Theorem C129_confined_partial (d x h t p : bytes) (r r' : list bytes) : IsAbs (d ++ #"/" ++ x) = true -> name x -> home = Some h -> IsAbs h = true ->
    handleTool (d ++ #"/" ++ x) (t :: r) = Program p r' -> (forall q, In q [#"."; #".."; #"/"] -> forall e, stat (Join e q) <> AFile) ->
    name t /\ t <> x /\ ~ In t builtins /\ r' = r /\ In p [spell (comps d ++ [t]); spell (comps h ++ [#".xgo"; #"bin"; t])] /\ stat p = AFile.
  Proof.
    intros A X H HA E DD. assert (NB : ~ In t builtins) by (intros I; cbn [In builtins] in I; destruct I as [<-|[<-|[<-|[<-|[<-|[<-|[<-|[]]]]]]]]; discriminate E).
    assert (NT : name t).
    { rewrite other in E by exact NB. unfold tryHandleTool in E. destruct (eqs (Base t) t) eqn:B; [|discriminate]. apply eqs_eq in B. cbn [negb] in E. destruct (eqs (Base t) _); [discriminate|]. rewrite H in E.
      apply base_noslash in B. assert (Q : ~ In t [#"."; #".."; #"/"]).
      { intros I. destruct (stat (Join (DirOf (d ++ #"/" ++ x)) t)) eqn:S; try (now apply (DD t I) in S); try discriminate;
          (assert (S2 : stat (Join h (#".xgo/bin/" ++ t)) <> AFile); [|destruct (stat (Join h (#".xgo/bin/" ++ t))); congruence]);
          (replace (Join h (#".xgo/bin/" ++ t)) with (Join (h ++ #"/.xgo/bin") t) by (unfold Join; f_equal; rewrite <- app_assoc; reflexivity)); now apply DD. }
      destruct B as [->|[B1 B2]]; [exfalso; apply Q; cbn; auto|]. repeat split; auto; intros ->; apply Q; cbn; auto. }
    assert (NX : t <> x).
    { intros ->. rewrite other in E by exact NB. unfold tryHandleTool in E. rewrite (base_name x X), eqs_refl in E. cbn [negb] in E. change #"/" with [slash] in *.
      assert (BX : eqs x (Base (d ++ [slash] ++ x)) = true).
      { apply eqs_eq. unfold Base. destruct (d ++ [slash] ++ x) as [|c0 p0] eqn:T; [destruct d; discriminate|]. rewrite <- T. destruct X as (X1 & _ & _ & X2).
        assert (R : trim_slashes (rev (d ++ [slash] ++ x)) = rev (d ++ [slash] ++ x)). { rewrite !rev_app_distr. destruct (rev x) as [|c q] eqn:Z; [apply (f_equal (@rev ascii)) in Z; rewrite rev_involutive in Z; exfalso; exact (X1 Z)|]. cbn [app]. eapply trim_id; [reflexivity|]. intros ->. apply X2, in_rev. rewrite Z. now left. }
        rewrite R, rev_involutive. rewrite T. cbn iota. rewrite <- T. change (d ++ [slash] ++ x) with (d ++ slash :: x). now rewrite cut_last_some. }
      now rewrite BX in E. }
    destruct (C129_runs_partial d x h t r A X H HA NB NT NX) as (P1 & P2 & P3). split; [exact NT|]. split; [exact NX|]. split; [exact NB|].
    destruct (stat (spell (comps d ++ [t]))) eqn:S1.
    - rewrite P1 in E by reflexivity. injection E as <- <-. split; [reflexivity|]. split; [now left|exact S1].
    - destruct (stat (spell (comps h ++ [#".xgo"; #"bin"; t]))) eqn:S2; try (rewrite P3 in E by congruence; discriminate). rewrite P2 in E by auto. injection E as <- <-. split; [reflexivity|]. split; [right; now left|exact S2].
    - destruct (stat (spell (comps h ++ [#".xgo"; #"bin"; t]))) eqn:S2; try (rewrite P3 in E by congruence; discriminate). rewrite P2 in E by auto. injection E as <- <-. split; [reflexivity|]. split; [right; now left|exact S2].
    - rewrite other in E by exact NB. unfold tryHandleTool in E. change #"/" with [slash] in *. rewrite (base_name t NT), eqs_refl in E. cbn [negb] in E. destruct (eqs t _); [discriminate|]. rewrite dir_abs in E by (auto; apply X). rewrite join_abs in E by (auto; reflexivity). rewrite comps_spell in E by apply comps_plain. now rewrite S1 in E.
  Qed.
  (** Called by its name, as the shell finds it, xgo takes the current directory for its own, and a program
      from PATH for one in it. *)
  Theorem C129_by_name_refuted (p : bytes) (r : list bytes) : stat #"notes" = AFile -> look #"notes" = Some p -> handleTool #"xgo" (#"notes" :: r) = Program p r.
  Proof. intros S L. change (handleTool #"xgo" (#"notes" :: r)) with (match stat #"notes" with AFile => match look #"notes" with Some p => Program p r | None => Unknown end | Unreadable => Unknown | ADir | Missing => match home with None => Unknown | Some h => let p := Join h (#".xgo/bin/" ++ #"notes") in match stat p with AFile => command look p r | _ => Unknown end end end). now rewrite S, L. Qed.
End C129.
(** Non-vacuity: a tool beside xgo, and one at home. *)
Definition two_tools (p : bytes) : kind := if eqs p #"/opt/bin/a" || eqs p #"/h/.xgo/bin/b" then AFile else Missing.
Example C129_ex : handleTool two_tools (Some #"/h") (fun _ => None) #"/opt/bin/xgo" [#"a"; #"-v"] = Program #"/opt/bin/a" [#"-v"] /\ handleTool two_tools (Some #"/h") (fun _ => None) #"/opt//bin/xgo" [#"b"] = Program #"/h/.xgo/bin/b" []
  /\ handleTool two_tools (Some #"/h") (fun _ => None) #"/opt/bin/xgo" [#"../bin/a"] = Unknown.
Proof. vm_compute. repeat split. Qed.
Print Assumptions C129_builtin. Print Assumptions C129_runs_partial. Print Assumptions C129_confined_partial. Print Assumptions C129_by_name_refuted.
