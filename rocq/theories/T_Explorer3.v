(** * C83, C84: the command line for one test and for one file of the tree *)
From Coq Require Import Ascii String List Arith Bool Lia Permutation.
From Verif Require Import M_Str M_Explorer T_Explorer T_Explorer2.
Import ListNotations.
Open Scope nat_scope. Open Scope list_scope.

(** ** Specification *)
(** The nodes of a tree with their addresses, as [entries]. *)
Fixpoint nodes (at_ : list bytes) (it : item) : list (list bytes * item) :=
  match it with Item h c => (at_, it) :: flat_map (fun x => nodes (at_ ++ [i_name (hd x)]) x) c end.
(** The argument that names a package directory. *)
Definition dir_arg (es : list bytes) : bytes := match es with [] => #"./." | _ => #"./" ++ slashed es end.
Definition names_below (it : item) : list bytes := map (fun c => i_name (hd c)) (children it).

(** ** Proofs *)
Lemma nodes_entries it : forall at_, map (fun px => (fst px, i_kind (hd (snd px)))) (nodes at_ it) = entries at_ it.
Proof.
  induction it as [h c IH] using item_ind'; intros at_. cbn [nodes entries map fst snd hd]. f_equal. rewrite Forall_forall in IH. induction c as [|x c IHc]; [reflexivity|]. cbn [flat_map]. rewrite map_app. f_equal; [apply IH; now left|apply IHc; intros; apply IH; now right].
Qed.
Lemma nodes_at_path it : forall es at_ p y, at_path es it -> In (p, y) (nodes (at_ ++ es) it) -> exists q, p = at_ ++ es ++ q /\ at_path (es ++ q) y /\ (q = [] -> y = it).
Proof.
  induction it as [h c IH] using item_ind'; intros es at_ p y A [I|I].
  - injection I as <- <-. exists []. rewrite !app_nil_r. auto.
  - apply in_flat_map in I as (x & I & J). rewrite Forall_forall in IH. inversion A as [es' h' c' A1 A2 A3 A4|fs h' A1 A2 A3 A4 A5]; subst; [|destruct I].
    rewrite <- app_assoc in J. destruct (IH x I _ _ _ _ (A4 x I) J) as (q & -> & Aq & _). exists (i_name (hd x) :: q). rewrite <- app_assoc in *. split; auto. split; auto. discriminate.
Qed.
(** The children of a file are cases. *)
Inductive files_ok : item -> Prop := files_ok_i h c : (i_kind h = KFile -> forall x, In x c -> i_kind (hd x) = KCase) -> (forall x, In x c -> files_ok x) -> files_ok (Item h c).
Lemma files_ok_scan excl sub n : forall rel x, In x (scan excl sub rel n) -> files_ok x.
Proof.
  induction n as [nm ds|nm g c IH] using node_ind'; intros rel x I; cbn [scan] in I; cbv zeta in I.
  - destruct (excl _); [destruct I|]. destruct (negb _); [destruct I|]. destruct I as [<-|[]]. unfold file_item. cbv zeta.
    assert (A : forall y, In y match ds with Some ds => parse_tests (child_path rel nm) ds | None => [] end -> i_kind (hd y) = KCase /\ files_ok y).
    { intros y J. destruct ds as [ds|]; [|destruct J]. unfold parse_tests in J. apply in_map_iff in J as (d & <- & _). split; [reflexivity|]. constructor; [discriminate|intros z []]. }
    constructor; intros; now apply A.
  - destruct (excl _); [destruct I|]. destruct (eqs _ _); [destruct I|]. destruct g; [destruct I|]. destruct I as [<-|[]]. constructor; [discriminate|]. intros y J. apply in_flat_map in J as (m & J & K). rewrite Forall_forall in IH. eapply IH; eauto.
Qed.
Lemma files_ok_filter it : forall y, files_ok it -> filter_item it = Some y -> files_ok y.
Proof.
  induction it as [h c IH] using item_ind'; intros y F E. rewrite Forall_forall in IH. inversion F as [h' c' F1 F2]; subst.
  assert (K : forall z, In z (flat_map keep c) -> exists x, In x c /\ filter_item x = Some z). { intros z I. apply in_flat_map in I as (x & I & J). unfold keep in J. destruct (filter_item x) eqn:Q; [|destruct J]. destruct J as [<-|[]]. eauto. }
  rewrite filter_item_eq in E. destruct (flat_map keep c) as [|z c'].
  - destruct (is_case h); [|discriminate E]. injection E as <-. constructor; intros; contradiction.
  - injection E as <-. constructor; [intros Hk x I; destruct (K x I) as (w & J & Q); rewrite (filter_hd _ _ Q); auto|]. intros x I. destruct (K x I) as (w & J & Q). eapply IH; eauto.
Qed.
Lemma files_ok_sorted it : forall y, files_ok it -> sorted_from it y -> files_ok y.
Proof.
  induction it as [h c IH] using item_ind'; intros y F S. rewrite Forall_forall in IH. inversion F as [h' c' F1 F2]; subst. inversion S as [h0 c0 c1 c2 G P]; subst.
  assert (K : forall z, In z c2 -> exists x, In x c /\ sorted_from x z).
  { intros z I. apply (Permutation_in z (Permutation_sym P)) in I. clear -G I. induction G as [|a b l l' S G IH]; [destruct I|]. destruct I as [<-|I]; [exists a; cbn; auto|]. destruct (IH I) as (x & J & Q). exists x. cbn. auto. }
  constructor; [intros Hk x I; destruct (K x I) as (w & J & Q); rewrite <- (sorted_hd _ _ Q); auto|]. intros x I. destruct (K x I) as (w & J & Q). eapply IH; eauto.
Qed.
Lemma files_ok_listing excl subs name ns root : listing excl subs name ns root -> files_ok root.
Proof.
  intros L. unfold listing in L. eapply files_ok_sorted; [|exact L]. unfold filter_root. constructor; [discriminate|]. intros x I. cbn [children] in I. apply in_flat_map in I as (y & I & J).
  destruct (filter_item y) eqn:Q; [|destruct J]. destruct J as [<-|[]]. apply (files_ok_filter y); auto. unfold scan_root in I. cbv zeta in I. cbn [children] in I. destruct (match subs with [] => false | _ => excl subs end); [destruct I|].
  apply in_flat_map in I as (n & _ & I). eapply files_ok_scan; eauto.
Qed.
Lemma files_ok_nodes it : forall at_ p y, files_ok it -> In (p, y) (nodes at_ it) -> files_ok y.
Proof.
  induction it as [h c IH] using item_ind'; intros at_ p y F [I|I]; [injection I as <- <-; exact F|]. apply in_flat_map in I as (x & I & J). rewrite Forall_forall in IH. inversion F; subst. eapply IH; eauto.
Qed.
Lemma slashed_dir es f : Forall good es -> good f -> #"./" ++ dir_of_file (slashed (es ++ [f])) = dir_arg es.
Proof.
  intros F [G1 G2]. unfold dir_of_file, dir_arg. destruct es as [|e es].
  - change (slashed ([] ++ [f])) with f. rewrite cut_last_none by auto. reflexivity.
  - rewrite slashed_snoc by discriminate. change (slashed (e :: es) ++ #"/" ++ f) with (slashed (e :: es) ++ "/"%char :: f). rewrite cut_last_some by auto. reflexivity.
Qed.
Lemma listing_at_path excl subs name ns root : Forall good subs -> ok_nodes ns -> listing excl (slashed subs) name ns root -> at_path [] root.
Proof. intros HS HN L. eapply at_path_sorted; [exact L|]. now apply root_filter_at_path. Qed.

(** ** C83 *)
(** A test of the tree, run from the page: go test runs, in the directory of its file, that test alone; and the
    item marked is the one at its address. *)
Theorem C83_command_of_test excl subs name ns root pfx p y : Forall good subs -> ok_nodes ns -> listing excl (slashed subs) name ns root ->
  In (p, y) (nodes [name] root) -> i_kind (hd y) = KCase ->
  exists es f n pat, p = name :: es ++ [f; n] /\ test_args y pfx = [#"-run"; pat; dir_arg es] /\ snd (fst (get_test_paths y pfx)) = [pfx ++ es ++ [f; n]] /\
    (top_level n -> forall t sub, go_runs pat (t :: sub) <-> t = n).
Proof.
  intros HS HN L I K. assert (E : In (p, KCase) (entries [name] root)). { rewrite <- nodes_entries. apply in_map_iff. exists (p, y). cbn. now rewrite K. }
  apply (C85_cases_listed _ _ _ _ _ HS HN L) in E as (es & l & f & d & _ & _ & Ep).
  pose proof (listing_at_path _ _ _ _ _ HS HN L) as A. change [name] with ([name] ++ []) in I. destruct (nodes_at_path _ _ _ _ _ A I) as (q & Eq & Aq & _). cbn [app] in Eq, Aq. rewrite Ep in Eq. injection Eq as <-.
  inversion Aq as [es' h c A1 A2 A3 A4|fs h A1 A2 A3 A4 A5 Ef Eh]; subst; [cbn in K; congruence|]. cbn [hd] in *.
  assert (X : fs = es ++ [f] /\ i_name h = d_name d). { change (es ++ [f; d_name d]) with (es ++ [f] ++ [d_name d]) in Ef. rewrite app_assoc in Ef. now apply app_inj_tail in Ef. }
  destruct X as [-> En]. apply Forall_app in A3 as [G1 G2]. inversion G2 as [|? ? Gf _]; subst.
  exists es, f, (d_name d), (format_run_names (Some [d_name d])). split; auto. unfold test_args, get_test_paths. cbn [hd]. rewrite A1, A5, A2.
  assert (NN : i_name h <> []) by apply A4. split; [|split].
  - rewrite <- (slashed_dir es f G1 Gf), <- En. destruct (i_name h) eqn:En'; [tauto|]. reflexivity.
  - cbn [fst snd]. unfold case_item_path, file_item_path. rewrite split_item_slashed by (apply good_snoc; auto). destruct A4 as [_ A4]. rewrite (split_noc _ _ A4). destruct (i_name h) eqn:En'; [tauto|]. rewrite <- En, <- !app_assoc. reflexivity.
  - intros T t sub. now apply C83_single_test_alone_partial.
Qed.
(** A file: the tests shown below it are selected, in its directory; the file and they are marked. *)
Theorem C83_command_of_file excl subs name ns root pfx p y : Forall good subs -> ok_nodes ns -> listing excl (slashed subs) name ns root ->
  In (p, y) (nodes [name] root) -> i_kind (hd y) = KFile ->
  exists es f pat, p = name :: es ++ [f] /\ test_args y pfx = [#"-run"; pat; dir_arg es] /\
    snd (fst (get_test_paths y pfx)) = (pfx ++ es ++ [f]) :: map (fun n => pfx ++ es ++ [f; n]) (names_below y) /\
    (forall x, In x (children y) -> i_kind (hd x) = KCase) /\
    (Forall top_level (names_below y) -> forall n sub, In n (names_below y) -> go_runs pat [n] /\ (names_below y = [n] -> forall t, go_runs pat (t :: sub) <-> t = n)).
Proof.
  intros HS HN L I K. pose proof (listing_at_path _ _ _ _ _ HS HN L) as A. pose proof I as I'. change [name] with ([name] ++ []) in I. destruct (nodes_at_path _ _ _ _ _ A I) as (q & Eq & Aq & Rq). cbn [app] in Eq, Aq.
  assert (Nq : q <> []). { intros ->. rewrite (Rq eq_refl) in K. unfold listing in L. rewrite <- (sorted_hd _ _ L) in K. discriminate K. }
  destruct (exists_last Nq) as (es & f & ->). pose proof (files_ok_nodes _ _ _ _ (files_ok_listing _ _ _ _ _ L) I') as FO. inversion FO as [h c F1 F2]; subst y.
  inversion Aq as [es' h' c' A1 A2 A3 A4|fs h' A1 A2 A3 A4 A5 Ef Eh]; subst; [|cbn in K; congruence]. cbn [hd] in *.
  apply Forall_app in A3 as [G1 G2]. inversion G2 as [|? ? Gf _]; subst.
  assert (SC : sub_cases (Item h c) = names_below (Item h c)).
  { unfold sub_cases, names_below. cbn [children]. f_equal. specialize (F1 K). clear -F1. induction c as [|x c IH]; [reflexivity|]. cbn [filter]. unfold is_case at 1. rewrite F1 by now left. f_equal. apply IH. intros y J. apply F1. now right. }
  exists es, f, (format_run_names (Some (names_below (Item h c)))). split; auto. unfold test_args, get_test_paths. cbn [hd]. rewrite K, SC, A2. split; [|split; [|split]].
  - rewrite <- (slashed_dir es f G1 Gf). reflexivity.
  - cbn [fst snd]. unfold file_item_path. rewrite split_item_slashed by (apply good_snoc; auto). f_equal. apply map_ext. intros n. rewrite <- !app_assoc. reflexivity.
  - intros x J. now apply F1.
  - intros T n sub J. split.
    + assert (FL : Forall (Forall literal) (names_below (Item h c))) by (eapply Forall_impl; [|exact T]; now intros ? []).
      pose proof (C83_all_chosen_tests_run_partial _ n 1 FL J) as R. rewrite Forall_forall in T. rewrite (split_noc _ _ (proj2 (T n J))) in R. exact R.
    + intros E t. rewrite E. apply C83_single_test_alone_partial. rewrite Forall_forall in T. now apply T.
Qed.
(** A subtest, whose item the explorer itself told the page of (C88_subtest_events: its NameUnderPkg is the test's
    name and its own, slashed): in the directory of the file, the subtest and the tests it is in are run; its
    item is marked. *)
Theorem C83_command_of_subtest h pfx es f t sub k : Forall good es -> good f -> i_kind h = KCase -> i_rel h = slashed (es ++ [f]) -> i_under h = slashed (t :: sub) ->
  t <> [] -> Forall (fun x => ~ In "/"%char x) (t :: sub) -> Forall (Forall literal) (t :: sub) ->
  exists pat, test_args (Item h []) pfx = [#"-run"; pat; dir_arg es] /\ snd (fst (get_test_paths (Item h []) pfx)) = [pfx ++ es ++ f :: t :: sub] /\
    go_runs pat (firstn k (t :: sub)).
Proof.
  intros G Gf K R U N F L. exists (format_run_names (Some [slashed (t :: sub)])). unfold test_args, get_test_paths. cbn [hd]. rewrite K, R, U.
  assert (NN : slashed (t :: sub) <> []). { unfold slashed. destruct sub; cbn; [exact N|]. destruct t; [now contradict N|discriminate]. }
  assert (SP : split "/"%char (slashed (t :: sub)) = t :: sub). { unfold slashed. apply split_join; [discriminate|exact F]. }
  split; [|split].
  - rewrite <- (slashed_dir es f G Gf). destruct (slashed (t :: sub)) eqn:E; [now contradict NN|]. reflexivity.
  - cbn [fst snd]. unfold case_item_path, file_item_path. rewrite split_item_slashed by (apply good_snoc; auto). destruct (slashed (t :: sub)) eqn:E; [now contradict NN|]. rewrite SP, <- !app_assoc. reflexivity.
  - pose proof (C83_all_chosen_tests_run_partial [slashed (t :: sub)] (slashed (t :: sub)) k) as X. rewrite SP in X. apply X; [|now left]. constructor; [|constructor]. rewrite Forall_forall. intros c I. unfold slashed in I.
    clear -I L. revert I. generalize dependent (t :: sub). intros l L. induction l as [|x l IH]; cbn; [tauto|]. inversion L; subst. destruct l as [|y l].
    + rewrite Forall_forall in H1. auto.
    + intros J. apply in_app_or in J as [J|J]; [rewrite Forall_forall in H1; auto|]. destruct J as [<-|J]; [vm_compute; reflexivity|]. auto.
Qed.
