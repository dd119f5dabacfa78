(** * C69-C70: the module of a directory *)
From Coq Require Import Ascii String List Arith Bool Lia.
From Verif Require Import M_Str M_Module.
Import ListNotations.
Open Scope nat_scope.
Open Scope list_scope.

(** ** Specification *)
(** root is the innermost directory of dir, itself included, with a go.mod file, and nothing on
    the way up is unreadable. *)
Definition nearest (fs : dirpath -> stat) (dir root : dirpath) (subs : list bytes) : Prop :=
  dir = root ++ subs /\ fs root = IsFile /\ forall a b, subs = a ++ b -> a <> [] -> fs (root ++ a) = Missing \/ fs (root ++ a) = IsDir.
Definition no_module (fs : dirpath -> stat) (dir : dirpath) : Prop := forall a b, dir = a ++ b -> fs a = Missing \/ fs a = IsDir.

(** ** Proofs *)
Lemma find_spec fs : forall up subs root s, find_go_mod fs up subs = Found root s ->
  exists t, s = t ++ rev subs /\ root <> [] /\ nearest fs (rev up) root t.
Proof.
  induction up as [|x up IH]; intros subs root s E; [discriminate|]. cbn [find_go_mod] in E.
  destruct (fs (rev (x :: up))) eqn:Q; try discriminate.
  - destruct (IH _ _ _ E) as (t & -> & N & R & F & H). exists (t ++ [x]). rewrite rev_app_distr. split; [now rewrite <- app_assoc|]. split; auto. split; [cbn [rev]; rewrite R; now rewrite <- app_assoc|]. split; auto.
    intros a b Ea Na. destruct b as [|y b] using rev_ind.
    + rewrite app_nil_r in Ea. subst a. rewrite app_assoc, <- R. cbn [rev] in Q. auto.
    + clear IHb. rewrite app_assoc in Ea. apply app_inj_tail in Ea as [Ea _]. apply (H a b); auto.
  - destruct (IH _ _ _ E) as (t & -> & N & R & F & H). exists (t ++ [x]). rewrite rev_app_distr. split; [now rewrite <- app_assoc|]. split; auto. split; [cbn [rev]; rewrite R; now rewrite <- app_assoc|]. split; auto.
    intros a b Ea Na. destruct b as [|y b] using rev_ind.
    + rewrite app_nil_r in Ea. subst a. rewrite app_assoc, <- R. cbn [rev] in Q. auto.
    + clear IHb. rewrite app_assoc in Ea. apply app_inj_tail in Ea as [Ea _]. apply (H a b); auto.
  - injection E as <- <-. exists []. split; auto. split; [cbn; now destruct (rev up)|]. split; [now rewrite app_nil_r|]. split; auto. intros a b Ea Na. destruct a; [congruence|discriminate Ea].
Qed.
Lemma find_complete fs : forall t root acc, root <> [] -> fs root = IsFile -> (forall a b, t = a ++ b -> a <> [] -> fs (root ++ a) = Missing \/ fs (root ++ a) = IsDir) ->
  find_go_mod fs (rev (root ++ t)) acc = Found root (t ++ rev acc).
Proof.
  induction t as [|x t IH] using rev_ind; intros root acc N F H.
  - rewrite app_nil_r. destruct root as [|r0 r] using rev_ind; [congruence|]. clear IHr. rewrite rev_app_distr. cbn [rev app find_go_mod]. rewrite rev_involutive, F. reflexivity.
  - rewrite app_assoc, rev_app_distr. cbn [rev app find_go_mod]. rewrite rev_involutive, <- app_assoc.
    assert (Q : find_go_mod fs (rev (root ++ t)) (acc ++ [x]) = Found root ((t ++ [x]) ++ rev acc)).
    { rewrite IH; auto; [now rewrite rev_app_distr, <- app_assoc|]. intros a b E Na. apply (H a (b ++ [x])); auto. rewrite E. now rewrite <- app_assoc. }
    destruct (H (t ++ [x]) [] (eq_sym (app_nil_r _))) as [X|X]; [now destruct t|rewrite X|rewrite X]; exact Q.
Qed.
Lemma find_none fs : forall up acc, (forall a b, rev up = a ++ b -> a <> [] -> fs a = Missing \/ fs a = IsDir) -> find_go_mod fs up acc = NotFound.
Proof.
  induction up as [|x up IH]; intros acc H; [reflexivity|]. cbn [find_go_mod].
  assert (Q : forall acc, find_go_mod fs up acc = NotFound) by (intros acc'; apply IH; intros a b E; apply (H a (b ++ [x])); cbn [rev]; rewrite E; now rewrite <- app_assoc).
  destruct (H (rev (x :: up)) [] (eq_sym (app_nil_r _))) as [X|X]; [cbn; now destruct (rev up)|rewrite X|rewrite X]; apply Q.
Qed.
(** The module is that of the innermost go.mod, with the path from there. *)
Theorem C69_nearest_partial :
  forall fs dir root subs, find_go_mod fs (rev dir) [] = Found root subs <-> root <> [] /\ nearest fs dir root subs.
Proof.
  intros fs dir root subs. split.
  - intros E. destruct (find_spec _ _ _ _ _ E) as (t & -> & N & H). cbn [rev]. rewrite app_nil_r. rewrite rev_involutive in H. auto.
  - intros (N & -> & F & H). rewrite find_complete by auto. cbn [rev]. now rewrite app_nil_r.
Qed.
Print Assumptions C69_nearest_partial.
Theorem C69_none :
  forall fs dir, no_module fs dir -> find_go_mod fs (rev dir) [] = NotFound /\ find_mod_dir fs (rev dir) [] = NotFound.
Proof.
  intros fs dir H. split.
  - apply find_none. rewrite rev_involutive. intros a b E _. now apply (H a b).
  - assert (G : forall up acc, (forall a b, rev up = a ++ b -> fs a = Missing \/ fs a = IsDir) -> find_mod_dir fs up acc = NotFound).
    { induction up as [|x up IH]; intros acc K.
      - cbn [find_mod_dir]. destruct (K (rev []) [] eq_refl) as [X|X]; now rewrite X.
      - cbn [find_mod_dir]. assert (Q : forall acc, find_mod_dir fs up acc = NotFound) by (intros acc'; apply IH; intros a b E; apply (K a (b ++ [x])); cbn [rev]; rewrite E; now rewrite <- app_assoc).
        destruct (K (rev (x :: up)) [] (eq_sym (app_nil_r _))) as [X|X]; rewrite X; apply Q. }
    apply G. rewrite rev_involutive. intros a b E. now apply (H a b).
Qed.
Print Assumptions C69_none.
(** The other search finds it as well, in the root directory too, but gives the way down in
    reverse. *)
Theorem C69_sub_path_partial :
  forall fs dir root subs, nearest fs dir root subs -> find_mod_dir fs (rev dir) [] = Found root (rev subs).
Proof.
  intros fs dir root subs (-> & F & H).
  assert (G : forall t acc, (forall a b, t = a ++ b -> a <> [] -> fs (root ++ a) = Missing \/ fs (root ++ a) = IsDir) -> find_mod_dir fs (rev (root ++ t)) acc = Found root (acc ++ rev t)).
  { induction t as [|x t IH] using rev_ind; intros acc K.
    - rewrite app_nil_r. cbn [rev]. rewrite app_nil_r. assert (Q := rev_involutive root). destruct (rev root) as [|y u]; cbn [find_mod_dir]; rewrite Q, F; reflexivity.
    - rewrite app_assoc, rev_app_distr. cbn [rev app find_mod_dir]. rewrite rev_involutive, <- app_assoc.
      assert (Q : find_mod_dir fs (rev (root ++ t)) (acc ++ [x]) = Found root (acc ++ rev (t ++ [x]))).
      { rewrite IH; [rewrite rev_app_distr, <- app_assoc; reflexivity|]. intros a b E Na. apply (K a (b ++ [x])); auto. rewrite E. now rewrite <- app_assoc. }
      destruct (K (t ++ [x]) [] (eq_sym (app_nil_r _))) as [X|X]; [now destruct t|rewrite X|rewrite X]; exact Q. }
  apply (G subs []). exact H.
Qed.
Print Assumptions C69_sub_path_partial.
Definition home : dirpath -> stat := fun d => if list_eq_dec (list_eq_dec ascii_dec) d [#"home"; #"m"] then IsFile else Missing.
Example C69_example : nearest home [#"home"; #"m"; #"a"; #"b"] [#"home"; #"m"] [#"a"; #"b"].
Proof.
  split; [reflexivity|]. split; [reflexivity|]. intros a b E N. left. destruct a as [|x [|y [|z a]]]; [congruence| | |discriminate E]; injection E; intros; subst; reflexivity.
Qed.
(** What is claimed of it, the path from the module to the directory, fails two levels down. *)
Theorem C69_sub_path_refuted :
  ~ (forall fs dir root subs got, nearest fs dir root subs -> find_mod_dir fs (rev dir) [] = Found root got -> root ++ got = dir).
Proof. intros H. specialize (H home _ _ _ [#"b"; #"a"] C69_example (C69_sub_path_partial _ _ _ _ C69_example)). discriminate H. Qed.
Print Assumptions C69_sub_path_refuted.
(** And a go.mod in the root directory is not found by the search xgo itself uses. *)
Theorem C69_root_refuted :
  ~ (forall fs dir root subs, nearest fs dir root subs -> exists s, find_go_mod fs (rev dir) [] = Found root s).
Proof.
  intros H. set (fs := fun d : dirpath => match d with [] => IsFile | _ => Missing end).
  destruct (H fs [#"src"] [] [#"src"]) as [s E]; [|discriminate E]. split; [reflexivity|]. split; [reflexivity|]. intros a b E N. left. destruct a; [congruence|reflexivity].
Qed.
Print Assumptions C69_root_refuted.

(** ** The project root *)
Lemma walk_app : forall es at_ e, e <> #".." -> walk_to at_ (es ++ [e]) = walk_to at_ es ++ [e].
Proof.
  induction es as [|x es IH]; intros at_ e N; cbn [app walk_to]; [|destruct (eqs x #".."); auto].
  destruct (eqs e #"..") eqn:E; auto. apply eqs_eq in E. contradiction.
Qed.
Lemma root_up : forall k p, length k <= length (u_elems p) -> u_slash p = false -> project_root p k = {| u_abs := u_abs p; u_elems := firstn (length (u_elems p) - length k) (u_elems p); u_slash := false |}.
Proof.
  induction k as [|x k IH]; intros [ab es sl] L S; cbn [u_abs u_elems u_slash length] in *; subst sl.
  - now rewrite Nat.sub_0_r, firstn_all.
  - cbn [project_root dir_of u_slash u_elems u_abs]. destruct es as [|y es] using rev_ind; [cbn in L; lia|]. clear IHes. rewrite removelast_last, app_length in *. cbn [length] in *.
    rewrite IH by (cbn; lia). cbn [u_abs u_elems]. replace (length es + 1 - S (length k)) with (length es - length k) by lia.
    rewrite firstn_app. replace (length es - length k - length es) with 0 by lia. cbn [firstn]. now rewrite app_nil_r.
Qed.
(** From a directory given with enough names and no final slash, the project root is the
    directory of the go.mod that was found. *)
Theorem C69_project_root_partial :
  forall fs cwd p root subs, u_slash p = false -> length subs <= length (u_elems p) -> ~ In #".." (skipn (length (u_elems p) - length subs) (u_elems p)) ->
    find_go_mod fs (rev (locate cwd p)) [] = Found root subs -> locate cwd (project_root p subs) = root.
Proof.
  intros fs cwd p root subs S L D E. apply C69_nearest_partial in E as (_ & E & _). rewrite root_up by auto. destruct p as [ab es sl]. unfold locate in *. cbn [u_abs u_elems] in *.
  revert E. match goal with |- context [walk_to ?b es] => generalize b end. intros base E. clear S sl.
  assert (G : forall k es, k <= length es -> ~ In #".." (skipn (length es - k) es) -> walk_to base es = walk_to base (firstn (length es - k) es) ++ skipn (length es - k) es).
  { clear. induction k as [|k IH]; intros es L D; [rewrite Nat.sub_0_r, firstn_all, skipn_all; now rewrite app_nil_r|].
    destruct es as [|e es] using rev_ind; [cbn in L; lia|]. clear IHes. rewrite app_length in *. cbn [length] in *.
    replace (length es + 1 - S k) with (length es - k) in * by lia. rewrite skipn_app in *. rewrite firstn_app. replace (length es - k - length es) with 0 in * by lia. cbn [firstn skipn] in *. rewrite app_nil_r.
    rewrite walk_app by (intros ->; apply D; apply in_or_app; right; now left). rewrite (IH es) by (lia || (intros I; apply D; apply in_or_app; now left)). now rewrite <- app_assoc. }
  specialize (G (length subs) es L D). rewrite G in E. assert (Ls : length (skipn (length es - length subs) es) = length subs) by (rewrite skipn_length; lia).
  clear -E Ls. revert E Ls. generalize (skipn (length es - length subs) es) (walk_to base (firstn (length es - length subs) es)). intros t u E L.
  assert (Lu : length u = length root) by (apply (f_equal (@length _)) in E; rewrite !app_length in E; lia).
  revert root Lu E. induction u as [|x u IH]; intros [|y r] Lu E; try discriminate; auto. injection E as -> E. f_equal. apply IH; auto.
Qed.
Print Assumptions C69_project_root_partial.
Example C69_project_root_example :
  let p := {| u_abs := true; u_elems := [#"home"; #"m"; #"a"; #"b"]; u_slash := false |} in
  find_go_mod home (rev (locate [] p)) [] = Found [#"home"; #"m"] [#"a"; #"b"] /\ locate [] (project_root p [#"a"; #"b"]) = [#"home"; #"m"].
Proof. split; vm_compute; reflexivity. Qed.
(** It fails for the default: xgo run in a directory below the module. *)
Theorem C69_project_root_refuted :
  ~ (forall fs cwd root subs, let p := {| u_abs := false; u_elems := []; u_slash := false |} in
      find_go_mod fs (rev (locate cwd p)) [] = Found root subs -> locate cwd (project_root p subs) = root).
Proof. intros H. specialize (H home [#"home"; #"m"; #"a"] [#"home"; #"m"] [#"a"] eq_refl). discriminate H. Qed.
Print Assumptions C69_project_root_refuted.
(** And with a slash at the end. *)
Theorem C69_slash_refuted :
  ~ (forall fs cwd p root subs, u_abs p = true -> find_go_mod fs (rev (locate cwd p)) [] = Found root subs -> locate cwd (project_root p subs) = root).
Proof. intros H. specialize (H home [] {| u_abs := true; u_elems := [#"home"; #"m"; #"a"]; u_slash := true |} [#"home"; #"m"] [#"a"] eq_refl eq_refl). discriminate H. Qed.
Print Assumptions C69_slash_refuted.
(** The vendor directory of the module is missed from below. *)
Theorem C69_vendor_refuted :
  ~ (forall fs cwd p root subs, u_abs p = true -> u_slash p = false -> find_go_mod fs (rev (locate cwd p)) [] = Found root subs -> vendor_base cwd p = root).
Proof. intros H. specialize (H home [] {| u_abs := true; u_elems := [#"home"; #"m"; #"a"]; u_slash := false |} [#"home"; #"m"] [#"a"] eq_refl eq_refl eq_refl). discriminate H. Qed.
Print Assumptions C69_vendor_refuted.
