(** * C84, C85: directories and cases of the test explorer *)
From Coq Require Import Ascii String List Arith Bool Lia Permutation.
From Verif Require Import M_Str M_Explorer.
Import ListNotations.
Open Scope nat_scope. Open Scope list_scope.

(** ** Specification *)
Definition slashed (es : list bytes) : bytes := join #"/" es.
(** Names of files: not empty, without slash. *)
Definition good (x : bytes) : Prop := x <> [] /\ ~ In "/"%char x.
Definition node_name (n : node) : bytes := match n with NFile x _ => x | NDir x _ _ => x end.
(** A directory as a file system and a Go parser give it. *)
Inductive ok_nodes : list node -> Prop :=
| ok_l l : NoDup (map node_name l) -> (forall n, In n l -> good (node_name n)) ->
    (forall x ds d, In (NFile x (Some ds)) l -> In d ds -> good (d_name d)) ->
    (forall x g c, In (NDir x g c) l -> ok_nodes c) -> ok_nodes l.
(** The explorer is started in the directory [subs] below the root of the module; [excl]: a path, from that
    root, is excluded by the configuration. *)
Section Tree.
Variables (excl : bytes -> bool) (subs : list bytes).
Definition in_scope (es : list bytes) : Prop := excl (slashed (subs ++ es)) = false.
(** From the directory at [es] holding [l], the directory at [es'] holding [l'] is reached without entering
    an excluded directory, the vendor directory of the module, or another module. *)
Inductive explored : list bytes -> list node -> list bytes -> list node -> Prop :=
| e_here es l : explored es l es l
| e_down es l name c es' l' : In (NDir name false c) l -> in_scope (es ++ [name]) -> slashed (subs ++ es ++ [name]) <> #"vendor" ->
    explored (es ++ [name]) c es' l' -> explored es l es' l'.
Definition starts (ns : list node) (es : list bytes) (l : list node) : Prop := (subs = [] \/ in_scope []) /\ explored [] ns es l.
(** The functions that are listed: TestXxx with a body and one parameter field. *)
Definition listed (d : fdecl) : Prop := (exists r, d_name d = #"Test" ++ r) /\ d_body d = true /\ d_params d = 1.
Definition has_case (es : list bytes) (l : list node) (file : bytes) (d : fdecl) : Prop :=
  exists ds p, In (NFile file (Some ds)) l /\ file = p ++ #"_test.go" /\ in_scope (es ++ [file]) /\ In d ds /\ listed d.
End Tree.
(** The nodes of a tree as the page addresses them: the names from the root. *)
Fixpoint entries (at_ : list bytes) (it : item) : list (list bytes * kind) :=
  match it with Item h c => (at_, i_kind h) :: flat_map (fun x => entries (at_ ++ [i_name (hd x)]) x) c end.

(** ** Proofs *)
Section ItemInd.
Variable P : item -> Prop.
Hypothesis H : forall h c, Forall P c -> P (Item h c).
Fixpoint item_ind' (it : item) : P it :=
  match it with Item h c => H h c ((fix go (l : list item) : Forall P l := match l with [] => Forall_nil P | x :: r => Forall_cons x (item_ind' x) (go r) end) c) end.
End ItemInd.
Lemma slashed_snoc es x : es <> [] -> slashed (es ++ [x]) = slashed es ++ #"/" ++ x.
Proof.
  induction es as [|e es IH]; intros N; [tauto|]. destruct es as [|f es]; [reflexivity|].
  change (slashed ((e :: f :: es) ++ [x])) with (e ++ #"/" ++ slashed ((f :: es) ++ [x])). rewrite IH by discriminate.
  change (slashed (e :: f :: es)) with (e ++ #"/" ++ slashed (f :: es)). now rewrite <- !app_assoc.
Qed.
Lemma slashed_app a b : a <> [] -> b <> [] -> slashed (a ++ b) = slashed a ++ #"/" ++ slashed b.
Proof.
  intros A. induction a as [|x a IH]; [tauto|]. intros B. destruct a as [|y a].
  - destruct b; [tauto|reflexivity].
  - change (slashed ((x :: y :: a) ++ b)) with (x ++ #"/" ++ slashed ((y :: a) ++ b)). rewrite IH by (auto; discriminate).
    change (slashed (x :: y :: a)) with (x ++ #"/" ++ slashed (y :: a)). now rewrite <- !app_assoc.
Qed.
Lemma slashed_nil es : Forall good es -> slashed es = [] -> es = [].
Proof.
  intros F E. destruct F as [|x es [G _] F]; auto. exfalso. destruct es as [|y es]; [now apply G|].
  change (slashed (x :: y :: es)) with (x ++ #"/" ++ slashed (y :: es)) in E. destruct x; discriminate E.
Qed.
Lemma split_slashed es : es <> [] -> Forall good es -> split "/"%char (slashed es) = es.
Proof. intros N F. apply split_join; auto. eapply Forall_impl; [|exact F]. now intros ? []. Qed.
Lemma slashed_inj a b : Forall good a -> Forall good b -> slashed a = slashed b -> a = b.
Proof.
  intros A B E. destruct a as [|x a].
  - symmetry in E. apply slashed_nil in E; auto.
  - destruct b as [|y b]; [apply slashed_nil in E; auto|]. rewrite <- (split_slashed (x :: a)), <- (split_slashed (y :: b)) by (auto; discriminate). now rewrite E.
Qed.
Lemma split_item_slashed es : Forall good es -> split_item_paths (slashed es) = es.
Proof.
  intros F. unfold split_item_paths. destruct (slashed es) eqn:E; [symmetry; now apply slashed_nil|]. rewrite <- E. apply split_slashed; auto. intros ->. discriminate E.
Qed.
Lemma child_slashed es x : Forall good es -> child_path (slashed es) x = slashed (es ++ [x]).
Proof.
  intros F. unfold child_path. destruct (slashed es) eqn:E.
  - apply slashed_nil in E; auto. subst. reflexivity.
  - rewrite <- E. symmetry. apply slashed_snoc. intros ->. discriminate E.
Qed.
Lemma rooted_slashed subs es : Forall good subs -> Forall good es -> rooted (slashed subs) (slashed es) = slashed (subs ++ es).
Proof.
  intros S F. unfold rooted. destruct (slashed subs) eqn:E.
  - apply slashed_nil in E; auto. now subst.
  - rewrite <- E. destruct (slashed es) eqn:E'.
    + apply slashed_nil in E'; auto. subst es. now rewrite app_nil_r.
    + rewrite <- E'. symmetry. apply slashed_app; intros ->; discriminate.
Qed.
Lemma suffix_iff s p : has_suffix s p = true <-> exists a, s = a ++ p.
Proof.
  unfold has_suffix. assert (P : forall p s, has_prefix s p = true <-> exists b, s = p ++ b).
  { clear. induction p as [|y p IH]; intros s; cbn.
    - split; [intros _; now exists s|auto].
    - destruct s as [|x s]; [split; [discriminate|intros (b & H); discriminate H]|]. rewrite andb_true_iff, eqc_eq, IH. split.
      + intros [-> (b & ->)]. now exists b.
      + intros (b & H). injection H as -> ->. split; auto. now exists b. }
  rewrite P. split.
  - intros (b & H). exists (rev b). apply (f_equal (@rev _)) in H. rewrite rev_involutive, rev_app_distr, rev_involutive in H. exact H.
  - intros (a & ->). exists (rev a). apply rev_app_distr.
Qed.
Lemma prefix_iff' s p : has_prefix s p = true <-> exists b, s = p ++ b.
Proof.
  revert s. induction p as [|y p IH]; intros s; cbn.
  - split; [intros _; now exists s|auto].
  - destruct s as [|x s]; [split; [discriminate|intros (b & H); discriminate H]|]. rewrite andb_true_iff, eqc_eq, IH. split.
    + intros [-> (b & ->)]. now exists b.
    + intros (b & H). injection H as -> ->. split; auto. now exists b.
Qed.
Lemma suffix_of_path es x : ~ In "/"%char x -> (exists a, slashed (es ++ [x]) = a ++ #"_test.go") <-> (exists a, x = a ++ #"_test.go").
Proof.
  intros N. destruct es as [|e es]; [tauto|]. rewrite slashed_snoc by discriminate. split.
  - intros (a & H). rewrite !app_assoc in H. destruct (le_lt_dec (length #"_test.go") (length x)) as [L|L].
    + exists (firstn (length x - length #"_test.go") x).
      assert (K : x = firstn (length x - length #"_test.go") x ++ skipn (length x - length #"_test.go") x) by (symmetry; apply firstn_skipn).
      rewrite K in H at 1. rewrite app_assoc in H. apply (f_equal (@rev _)) in H. rewrite !rev_app_distr in H. rewrite K at 1. f_equal.
      assert (R : rev (skipn (length x - length #"_test.go") x) = rev #"_test.go").
      { revert H. generalize (rev (firstn (length x - length #"_test.go") x) ++ rev #"/" ++ rev (slashed (e :: es))). generalize (rev a).
        assert (LL : length (rev (skipn (length x - length #"_test.go") x)) = length (rev #"_test.go")). { rewrite !rev_length, skipn_length. unfold bytes in *. lia. }
        revert LL. generalize (rev (skipn (length x - length #"_test.go") x)) (rev #"_test.go"). intros u v LL w z H.
        revert v LL H. induction u as [|c u IH]; intros [|d v] LL H; try discriminate LL; auto. cbn in *. injection H as -> H. f_equal. apply IH; auto. }
      apply (f_equal (@rev _)) in R. now rewrite !rev_involutive in R.
    + exfalso. (* the suffix reaches back over the slash *)
      assert (In "/"%char #"_test.go").
      { assert (Q : forall (u v w z : bytes), u ++ v = w ++ z -> length v <= length z -> exists k, z = k ++ v).
        { clear. intros u v w z H L. exists (firstn (length z - length v) z). apply (f_equal (@rev _)) in H. rewrite !rev_app_distr in H.
          assert (R : firstn (length v) (rev z) = rev v). { apply (f_equal (firstn (length v))) in H. rewrite !firstn_app, !rev_length, Nat.sub_diag in H. replace (length v - length z) with 0 in H by (unfold bytes in *; lia).
            cbn in H. rewrite !app_nil_r in H. rewrite <- H. rewrite <- (rev_length v) at 1. apply firstn_all. }
          rewrite firstn_rev in R. apply (f_equal (@rev _)) in R. rewrite !rev_involutive in R. transitivity (firstn (length z - length v) z ++ skipn (length z - length v) z); [symmetry; apply firstn_skipn|now rewrite R at 1]. }
        destruct (Q (slashed (e :: es)) (#"/" ++ x) a #"_test.go") as (k & K); [now rewrite <- H, app_assoc|cbn in *; unfold bytes in *; lia|]. rewrite K. apply in_or_app. right. now left. }
      cbn in H0. intuition discriminate.
  - intros (a & ->). exists (slashed (e :: es) ++ #"/" ++ a). now rewrite <- !app_assoc.
Qed.
Lemma listed_iff d : is_test_func d = true <-> listed d.
Proof. unfold is_test_func, listed. rewrite !andb_true_iff, prefix_iff', Nat.eqb_eq. tauto. Qed.

(** *** Shape of the items *)
Inductive shaped : item -> Prop :=
| sh_case h : i_kind h = KCase -> shaped (Item h [])
| sh_file h c : i_kind h = KFile -> (forall x, In x c -> shaped x /\ i_kind (hd x) = KCase) -> i_cases h = match c with [] => false | _ => true end -> shaped (Item h c)
| sh_dir h c : i_kind h = KDir -> (forall x, In x c -> shaped x /\ i_kind (hd x) <> KCase) -> i_cases h = existsb file_with_cases c -> shaped (Item h c).
Lemma file_shaped name rel ds : shaped (file_item name rel ds).
Proof.
  unfold file_item. cbv zeta. apply sh_file; [reflexivity| |reflexivity]. intros x I. destruct ds as [ds|]; [|destruct I].
  unfold parse_tests in I. apply in_map_iff in I as (d & <- & _). split; [now apply sh_case|reflexivity].
Qed.
Section NodeInd.
Variable P : node -> Prop.
Hypothesis HF : forall x ds, P (NFile x ds).
Hypothesis HD : forall x g c, Forall P c -> P (NDir x g c).
Fixpoint node_ind' (n : node) : P n :=
  match n with
  | NFile x ds => HF x ds
  | NDir x g c => HD x g c ((fix go (l : list node) : Forall P l := match l with [] => Forall_nil P | y :: r => Forall_cons y (node_ind' y) (go r) end) c)
  end.
End NodeInd.
Lemma scan_shaped excl sub n : forall rel x, In x (scan excl sub rel n) -> shaped x /\ i_kind (hd x) <> KCase.
Proof.
  induction n as [nm ds|nm g c IH] using node_ind'; intros rel x I; cbn in I.
  - destruct (excl _); [destruct I|]. destruct (negb _); [destruct I|]. destruct I as [<-|[]]. split; [apply file_shaped|discriminate].
  - destruct (excl _); [destruct I|]. destruct (eqs _ _); [destruct I|]. destruct g; [destruct I|]. destruct I as [<-|[]]. split; [|discriminate].
    apply sh_dir; [reflexivity| |reflexivity]. intros y J. apply in_flat_map in J as (m & J & K). rewrite Forall_forall in IH. eapply IH; eauto.
Qed.
Lemma root_shaped excl sub nm ns : shaped (scan_root excl sub nm ns).
Proof.
  apply sh_dir; [reflexivity| |reflexivity]. intros x I. destruct (match sub with [] => false | _ => excl sub end); [destruct I|].
  apply in_flat_map in I as (m & _ & K). eapply scan_shaped; eauto.
Qed.
Lemma shaped_children it x : shaped it -> In x (children it) -> shaped x.
Proof. intros S I. inversion S; subst; cbn in I; [destruct I|now apply H0|now apply H0]. Qed.
Lemma case_no_children it : shaped it -> i_kind (hd it) = KCase -> children it = [].
Proof. intros S K. inversion S; subst; cbn in *; auto; congruence. Qed.

(** *** Filtering *)
Inductive full : item -> Prop :=
| full_case h : i_kind h = KCase -> full (Item h [])
| full_node h c : c <> [] -> (forall x, In x c -> full x) -> full (Item h c).
Definition keep (x : item) : list item := match filter_item x with Some y => [y] | None => [] end.
Lemma filter_item_eq h c : filter_item (Item h c) = match flat_map keep c with [] => if is_case h then Some (Item h []) else None | c' => Some (Item h c') end.
Proof. change (filter_item (Item h c)) with (match flat_map keep c with [] => if is_case h then Some (Item h []) else None | _ => Some (Item h (flat_map keep c)) end). now destruct (flat_map keep c). Qed.
Definition filter_ok (it : item) : Prop :=
  match filter_item it with
  | Some y => hd y = hd it /\ full y /\ all_paths y = all_paths it /\ (forall at_ p, In (p, KCase) (entries at_ y) <-> In (p, KCase) (entries at_ it))
  | None => i_kind (hd it) <> KCase /\ i_cases (hd it) = false /\ all_paths it = [] /\ forall at_ p, ~ In (p, KCase) (entries at_ it)
  end.
Lemma keep_all c : Forall filter_ok c -> flat_map all_paths (flat_map keep c) = flat_map all_paths c /\
  (forall at_ p, In (p, KCase) (flat_map (fun x => entries (at_ ++ [i_name (hd x)]) x) (flat_map keep c)) <-> In (p, KCase) (flat_map (fun x => entries (at_ ++ [i_name (hd x)]) x) c)) /\
  (forall y, In y (flat_map keep c) -> full y).
Proof.
  induction 1 as [|x c F FF (I1 & I2 & I3)]; [cbn; repeat split; intros; tauto|].
  unfold filter_ok in F. cbn [flat_map]. unfold keep at 1 3 5. destruct (filter_item x) as [y|] eqn:E.
  - destruct F as (F1 & F2 & F3 & F4). cbn [app flat_map]. split; [|split].
    + now rewrite F3, I1.
    + intros at_ p. rewrite !in_app_iff, F1, F4, I2. tauto.
    + intros z [<-|J]; auto.
  - destruct F as (_ & _ & F3 & F4). cbn [app flat_map]. split; [now rewrite F3, I1|]. split; auto. intros at_ p. rewrite in_app_iff, I2. specialize (F4 (at_ ++ [i_name (hd x)]) p). tauto.
Qed.
Lemma filter_good it : shaped it -> filter_ok it.
Proof.
  induction it as [h c IH] using item_ind'; intros S.
  assert (IH' : Forall filter_ok c). { rewrite Forall_forall in IH |- *. intros x I. apply IH; auto. eapply shaped_children; eauto. }
  clear IH. destruct (keep_all c IH') as (K1 & K2 & K3). unfold filter_ok. rewrite filter_item_eq. destruct (flat_map keep c) as [|y c'] eqn:E.
  - cbn in K1, K2. unfold is_case. destruct (i_kind h) eqn:Kd.
    + cbn [hd all_paths entries]. rewrite Kd. unfold own_paths. rewrite Kd.
      assert (C : i_cases h = false).
      { inversion S; subst; try congruence. rewrite H3. destruct (existsb file_with_cases c) eqn:X; auto. exfalso. apply existsb_exists in X as (x & I & X).
        rewrite Forall_forall in IH'. specialize (IH' x I). unfold filter_ok in IH'. destruct (filter_item x) as [y|] eqn:F.
        - assert (J : In y (flat_map keep c)) by (apply in_flat_map; exists x; split; auto; unfold keep; rewrite F; now left). rewrite E in J. destruct J.
        - destruct IH' as (_ & Y & _). unfold file_with_cases in X. destruct (i_kind (hd x)); congruence. }
      rewrite C. split; [congruence|]. split; auto. split; [now rewrite <- K1|]. intros at_ p [H|H]; [discriminate H|]. apply K2 in H. exact H.
    + cbn [hd all_paths entries]. rewrite Kd. unfold own_paths. rewrite Kd.
      assert (C : i_cases h = false).
      { inversion S; subst; try congruence. rewrite H3. destruct c as [|x c]; auto. exfalso. rewrite Forall_forall in IH'. specialize (IH' x (or_introl eq_refl)). unfold filter_ok in IH'.
        destruct (filter_item x) as [y|] eqn:F.
        - assert (J : In y (flat_map keep (x :: c))) by (apply in_flat_map; exists x; split; [now left|]; unfold keep; rewrite F; now left). rewrite E in J. destruct J.
        - destruct IH' as (Y & _). apply Y. now apply (H2 x (or_introl eq_refl)). }
      rewrite C. split; [congruence|]. split; auto. split; [now rewrite <- K1|]. intros at_ p [H|H]; [discriminate H|]. apply K2 in H. exact H.
    + split; auto. split; [now apply full_case|]. assert (c = []) as -> by (apply (case_no_children _ S Kd)). cbn. split; [reflexivity|]. tauto.
  - split; auto. split; [apply full_node; [discriminate|exact K3]|]. split; [cbn [all_paths]; now rewrite K1|].
    intros at_ p. cbn [entries In]. rewrite K2. tauto.
Qed.
Lemma full_has_case y : full y -> forall at_, exists q, In (at_ ++ q, KCase) (entries at_ y).
Proof.
  induction y as [h c IH] using item_ind'; intros F at_. inversion F; subst.
  - exists []. rewrite app_nil_r. cbn. rewrite H0. now left.
  - destruct c as [|x c]; [congruence|]. rewrite Forall_forall in IH. destruct (IH x (or_introl eq_refl) (H2 x (or_introl eq_refl)) (at_ ++ [i_name (hd x)])) as (q & I).
    exists (i_name (hd x) :: q). cbn [entries flat_map]. right. apply in_or_app. left. now rewrite <- app_assoc in I.
Qed.

(** *** Sorting *)
Lemma sorted_hd a b : sorted_from a b -> hd a = hd b. Proof. now intros []. Qed.
Lemma flat_map_perm {A B} (f : A -> list B) l l' : Permutation l l' -> Permutation (flat_map f l) (flat_map f l').
Proof. intros P. rewrite !flat_map_concat_map. induction P; cbn; auto. - now apply Permutation_app_head. - rewrite !app_assoc. apply Permutation_app_tail. apply Permutation_app_comm. - eapply Permutation_trans; eauto. Qed.
Lemma sorted_perm it : forall it', sorted_from it it' -> Permutation (all_paths it) (all_paths it') /\ forall at_, Permutation (entries at_ it) (entries at_ it').
Proof.
  induction it as [h c IH] using item_ind'; intros it' S. inversion S as [h' c' c1 c2 F P]; subst.
  assert (A : Permutation (flat_map all_paths c) (flat_map all_paths c1) /\ forall at_, Permutation (flat_map (fun x => entries (at_ ++ [i_name (hd x)]) x) c) (flat_map (fun x => entries (at_ ++ [i_name (hd x)]) x) c1)).
  { clear S P. induction F as [|x y c c1 Sx F IHF]; [split; auto|]. inversion IH; subst. destruct (IHF H2) as [A1 A2]. destruct (H1 y Sx) as [B1 B2].
    split; cbn [flat_map]; [now apply Permutation_app|]. intros at_. rewrite (sorted_hd _ _ Sx). apply Permutation_app; auto. }
  destruct A as [A1 A2]. split.
  - cbn [all_paths]. apply Permutation_app_head. eapply Permutation_trans; [exact A1|]. now apply flat_map_perm.
  - intros at_. cbn [entries]. constructor. eapply Permutation_trans; [apply A2|]. now apply flat_map_perm.
Qed.
Lemma sorted_full it : forall it', sorted_from it it' -> full it -> full it'.
Proof.
  induction it as [h c IH] using item_ind'; intros it' S Fu. inversion S as [h' c' c1 c2 F P]; subst. inversion Fu; subst.
  - inversion F; subst. apply Permutation_nil in P. subst. now apply full_case.
  - apply full_node.
    + intros ->. apply Permutation_sym, Permutation_nil in P. subst c1. inversion F; subst. congruence.
    + intros y I. apply (Permutation_in y (Permutation_sym P)) in I. clear -IH F H2 I. induction F as [|x z c c1 Sx F IHF]; [destruct I|]. inversion IH; subst. destruct I as [<-|I]; [apply (H1 z Sx), H2; now left|].
      apply IHF; auto. intros w J. apply H2. now right.
Qed.

(** *** Addresses *)
Inductive at_path : list bytes -> item -> Prop :=
| ap_node es h c : i_kind h <> KCase -> i_rel h = slashed es -> Forall good es -> (forall x, In x c -> at_path (es ++ [i_name (hd x)]) x) -> at_path es (Item h c)
| ap_case fs h : i_kind h = KCase -> i_rel h = slashed fs -> Forall good fs -> good (i_name h) -> i_under h = i_name h -> at_path (fs ++ [i_name h]) (Item h []).
Lemma at_path_entries it : forall es pre, at_path es it -> all_item_paths pre it = map fst (entries (pre ++ es) it).
Proof.
  induction it as [h c IH] using item_ind'; intros es pre A. inversion A as [es' h' c' A1 A2 A3 A4|fs h' A1 A2 A3 A4 A5]; subst.
  - cbn [all_item_paths entries map]. f_equal.
    + unfold own_item_path, file_item_path. rewrite A2, split_item_slashed by auto. destruct (i_kind h); [reflexivity|reflexivity|now elim A1].
    + rewrite Forall_forall in IH. clear -IH A4. induction c as [|x c IHc]; [reflexivity|]. cbn [flat_map]. rewrite map_app. f_equal.
      * rewrite <- app_assoc. apply IH; [now left|]. apply A4. now left.
      * apply IHc; intros; [apply IH; auto; now right|]. apply A4. now right.
  - cbn. f_equal. unfold own_item_path. rewrite A1. unfold case_item_path. rewrite A5.
    unfold file_item_path. rewrite A2, split_item_slashed by auto. destruct A4 as [G1 G2]. rewrite (split_noc _ _ G2). destruct (i_name h); [tauto|]. now rewrite app_assoc.
Qed.
Lemma filter_hd x y : filter_item x = Some y -> hd y = hd x.
Proof. destruct x as [h c]. rewrite filter_item_eq. destruct (flat_map keep c); [destruct (is_case h)|]; intros H; try discriminate H; injection H as <-; reflexivity. Qed.
Lemma at_path_filter it : forall es y, filter_item it = Some y -> at_path es it -> at_path es y.
Proof.
  induction it as [h c IH] using item_ind'; intros es y F A. inversion A as [es' h' c' A1 A2 A3 A4|fs h' A1 A2 A3 A4 A5]; subst.
  - assert (K : forall z, In z (flat_map keep c) -> at_path (es ++ [i_name (hd z)]) z).
    { intros z I. apply in_flat_map in I as (x & I & J). unfold keep in J. destruct (filter_item x) eqn:E; [|destruct J]. destruct J as [<-|[]]. rewrite (filter_hd _ _ E). rewrite Forall_forall in IH. eapply IH; eauto. }
    rewrite filter_item_eq in F. destruct (flat_map keep c) as [|z c'].
    + unfold is_case in F. destruct (i_kind h); congruence.
    + injection F as <-. apply ap_node; auto.
  - cbn in F. unfold is_case in F. rewrite A1 in F. injection F as <-. now apply ap_case.
Qed.
Lemma at_path_sorted it : forall es it', sorted_from it it' -> at_path es it -> at_path es it'.
Proof.
  induction it as [h c IH] using item_ind'; intros es it' S A. inversion S as [h0 c0 c1 c2 F P]; subst. inversion A as [es' h' c' A1 A2 A3 A4|fs h' A1 A2 A3 A4 A5]; subst.
  - apply ap_node; auto. intros y I. apply (Permutation_in y (Permutation_sym P)) in I. clear -IH F A4 I. induction F as [|x z c c1 Sx F IHF]; [destruct I|]. inversion IH as [|? ? X1 X2]; subst. destruct I as [<-|I].
    + rewrite <- (sorted_hd _ _ Sx). apply (X1 _ z Sx). apply A4. now left.
    + apply IHF; auto. intros w J. apply A4. now right.
  - inversion F; subst. apply Permutation_nil in P. subst. now apply ap_case.
Qed.
Section Scan.
Variables (excl : bytes -> bool) (subs : list bytes).
Hypothesis Hsubs : Forall good subs.
Notation scan_at es n := (scan excl (slashed subs) (slashed es) n).
Lemma scan_name es n x : In x (scan_at es n) -> i_name (hd x) = node_name n.
Proof.
  destruct n as [nm ds|nm g c]; cbn [scan node_name]; cbv zeta.
  - destruct (excl _); [intros []|]. destruct (negb _); [intros []|]. intros [<-|[]]. reflexivity.
  - destruct (excl _); [intros []|]. destruct (eqs _ _); [intros []|]. destruct g; [intros []|]. intros [<-|[]]. reflexivity.
Qed.
Lemma good_snoc es x : Forall good es -> good x -> Forall good (es ++ [x]).
Proof. intros. apply Forall_app. auto. Qed.
Lemma scan_path_root es x : Forall good es -> good x -> rooted (slashed subs) (child_path (slashed es) x) = slashed (subs ++ es ++ [x]).
Proof. intros F G. rewrite child_slashed by auto. apply rooted_slashed; auto. now apply good_snoc. Qed.
Lemma scan_at_path n : forall es, Forall good es -> good (node_name n) ->
  (forall ds d, n = NFile (node_name n) (Some ds) -> In d ds -> good (d_name d)) -> (forall g c, n = NDir (node_name n) g c -> ok_nodes c) ->
  forall x, In x (scan_at es n) -> at_path (es ++ [node_name n]) x.
Proof.
  induction n as [nm ds|nm g c IH] using node_ind'; intros es F G D O x I; cbn [scan node_name] in *; cbv zeta in I; rewrite scan_path_root in I by auto; rewrite child_slashed in I by auto.
  - destruct (excl _); [destruct I|]. destruct (negb _); [destruct I|]. destruct I as [<-|[]]. unfold file_item. cbv zeta.
    apply ap_node; [discriminate|reflexivity|now apply good_snoc|]. intros y J. destruct ds as [ds|]; [|destruct J].
    unfold parse_tests in J. apply in_map_iff in J as (d & <- & J). apply filter_In in J as [J _].
    apply (ap_case (es ++ [nm])); auto; [now apply good_snoc|]. cbn. eauto.
  - destruct (excl _); [destruct I|]. destruct (eqs _ _); [destruct I|]. destruct g; [destruct I|]. destruct I as [<-|[]].
    apply ap_node; [discriminate|reflexivity|now apply good_snoc|]. intros y J. apply in_flat_map in J as (m & J & K). rewrite (scan_name _ _ _ K).
    rewrite Forall_forall in IH. specialize (O _ _ eq_refl). inversion O as [l O1 O2 O3 O4]; subst. eapply IH; eauto.
    + now apply good_snoc.
    + intros ds d X Jd. rewrite X in J. eauto.
    + intros g' c' X. rewrite X in J. eauto.
Qed.

(** Directories with cases. *)
Definition dir_of_case (es : list bytes) (l : list node) (p : bytes) : Prop :=
  exists es' l', explored excl subs es l es' l' /\ (exists f d, has_case excl subs es' l' f d) /\ p = slashed es'.
Lemma file_cases_iff es l : Forall good es -> ok_nodes l -> existsb file_with_cases (flat_map (scan excl (slashed subs) (slashed es)) l) = true <-> exists f d, has_case excl subs es l f d.
Proof.
  intros F O. inversion O as [l' O1 O2 O3 O4]; subst. rewrite existsb_exists. split.
  - intros (x & I & X). apply in_flat_map in I as (n & I & J). destruct n as [nm ds|nm g c]; cbn [scan] in J; cbv zeta in J.
    + pose proof (O2 _ I) as G. cbn in G. rewrite scan_path_root in J by auto. rewrite child_slashed in J by auto.
      destruct (excl _) eqn:Ex; [destruct J|]. destruct (has_suffix _ _) eqn:Su; [|destruct J]. destruct J as [<-|[]].
      unfold file_with_cases, file_item in X. cbn in X. destruct ds as [ds|]; [|discriminate X]. unfold parse_tests in X.
      destruct (filter is_test_func ds) as [|d r] eqn:Fi; [discriminate X|]. exists nm, d. apply suffix_iff in Su. apply suffix_of_path in Su as (p & Su); [|apply G].
      exists ds, p. split; auto. split; auto. split; [exact Ex|]. assert (K : In d (filter is_test_func ds)) by (rewrite Fi; now left). apply filter_In in K as [K1 K2]. split; auto. now apply listed_iff.
    + destruct (excl _); [destruct J|]. destruct (eqs _ _); [destruct J|]. destruct g; [destruct J|]. destruct J as [<-|[]]. discriminate X.
  - intros (f & d & ds & p & I & Su & Ex & K & L). exists (file_item f (slashed (es ++ [f])) (Some ds)). split.
    + apply in_flat_map. exists (NFile f (Some ds)). split; auto. cbn [scan]. cbv zeta. pose proof (O2 _ I) as G. cbn in G. rewrite scan_path_root by auto. rewrite child_slashed by auto.
      unfold in_scope in Ex. rewrite Ex. rewrite (proj2 (suffix_iff (slashed (es ++ [f])) #"_test.go")); [now left|]. apply suffix_of_path; [apply G|]. eauto.
    + unfold file_with_cases, file_item. cbn. unfold parse_tests. assert (J : In d (filter is_test_func ds)) by (apply filter_In; split; auto; now apply listed_iff). destruct (filter is_test_func ds); [destruct J|reflexivity].
Qed.
Lemma scan_paths n : forall es, Forall good es -> good (node_name n) -> (forall g c, n = NDir (node_name n) g c -> ok_nodes c) ->
  (forall p, In p (flat_map all_paths (scan_at es n)) <-> exists c, n = NDir (node_name n) false c /\ in_scope excl subs (es ++ [node_name n]) /\ slashed (subs ++ es ++ [node_name n]) <> #"vendor" /\ dir_of_case (es ++ [node_name n]) c p) /\
  NoDup (flat_map all_paths (scan_at es n)) /\ (forall p, In p (flat_map all_paths (scan_at es n)) -> exists tl, p = slashed (es ++ node_name n :: tl) /\ Forall good tl).
Proof.
  induction n as [nm ds|nm g c IH] using node_ind'; intros es F G O; cbn [scan node_name] in *; cbv zeta; rewrite scan_path_root by auto; rewrite child_slashed by auto.
  - assert (N : flat_map all_paths (if excl (slashed (subs ++ es ++ [nm])) then [] else if negb (has_suffix (slashed (es ++ [nm])) #"_test.go") then [] else [file_item nm (slashed (es ++ [nm])) ds]) = []).
    { destruct (excl _); auto. destruct (negb _); auto. cbn. rewrite app_nil_r. destruct ds as [ds|]; auto. unfold parse_tests. induction (filter is_test_func ds); cbn; auto. }
    rewrite N. split; [|split; [constructor|intros p []]]. intros p. split; [intros []|]. intros (c & H & _). discriminate H.
  - destruct (excl (slashed (subs ++ es ++ [nm]))) eqn:Ex.
    { cbn. split; [|split; [constructor|intros p []]]. intros p. split; [intros []|]. intros (c' & _ & H & _). unfold in_scope in H. rewrite H in Ex. discriminate Ex. }
    destruct (eqs (slashed (subs ++ es ++ [nm])) #"vendor") eqn:V.
    { cbn. split; [|split; [constructor|intros p []]]. intros p. split; [intros []|]. intros (c' & _ & _ & H & _). apply eqs_eq in V. elim H. exact V. }
    destruct g.
    { cbn. split; [|split; [constructor|intros p []]]. intros p. split; [intros []|]. intros (c' & H & _). discriminate H. }
    assert (V' : slashed (subs ++ es ++ [nm]) <> #"vendor"). { intros H. apply eqs_eq in H. rewrite H in V. discriminate V. }
    specialize (O _ _ eq_refl). inversion O as [l O1 O2 O3 O4]; subst. rewrite Forall_forall in IH.
    assert (Fe : Forall good (es ++ [nm])) by now apply good_snoc.
    assert (IH' : forall n, In n c -> (forall p, In p (flat_map all_paths (scan_at (es ++ [nm]) n)) <-> exists c0, n = NDir (node_name n) false c0 /\ in_scope excl subs ((es ++ [nm]) ++ [node_name n]) /\ slashed (subs ++ (es ++ [nm]) ++ [node_name n]) <> #"vendor" /\ dir_of_case ((es ++ [nm]) ++ [node_name n]) c0 p) /\
       NoDup (flat_map all_paths (scan_at (es ++ [nm]) n)) /\ (forall p, In p (flat_map all_paths (scan_at (es ++ [nm]) n)) -> exists tl, p = slashed ((es ++ [nm]) ++ node_name n :: tl) /\ Forall good tl)).
    { intros n I. apply IH; auto. intros g' c' X. rewrite X in I. eauto. }
    cbn [flat_map all_paths]. rewrite app_nil_r. set (S := flat_map (scan excl (slashed subs) (slashed (es ++ [nm]))) c).
    assert (FS : flat_map all_paths S = flat_map (fun n => flat_map all_paths (scan_at (es ++ [nm]) n)) c). { unfold S. clear. induction c as [|n c IHc]; cbn; auto. now rewrite flat_map_app, IHc. }
    assert (Below : forall p, In p (flat_map all_paths S) <-> exists n c', In n c /\ n = NDir (node_name n) false c' /\ in_scope excl subs ((es ++ [nm]) ++ [node_name n]) /\ slashed (subs ++ (es ++ [nm]) ++ [node_name n]) <> #"vendor" /\ dir_of_case ((es ++ [nm]) ++ [node_name n]) c' p).
    { intros p. rewrite FS, in_flat_map. split.
      - intros (n & I & J). apply (proj1 (IH' n I)) in J as (c' & J). exists n, c'. auto.
      - intros (n & c' & I & J). exists n. split; auto. apply (proj1 (IH' n I)). exists c'. auto. }
    assert (Tails : forall p, In p (flat_map all_paths S) -> exists x tl, p = slashed (es ++ nm :: x :: tl) /\ good x /\ Forall good tl).
    { intros p I. rewrite FS in I. apply in_flat_map in I as (n & I & J). destruct (proj2 (proj2 (IH' n I)) p J) as (tl & -> & T). exists (node_name n), tl. rewrite <- app_assoc. auto. }
    assert (Own : own_paths {| i_name := nm; i_under := []; i_rel := slashed (es ++ [nm]); i_kind := KDir; i_cases := existsb file_with_cases S |} = if existsb file_with_cases S then [slashed (es ++ [nm])] else []) by reflexivity.
    rewrite Own. clear Own. pose proof (file_cases_iff (es ++ [nm]) c Fe O) as FC. fold S in FC.
    split; [|split].
    + intros p. rewrite in_app_iff, Below. split.
      * intros [I|(n & c' & I & E & A & B & es' & l' & D1 & D2 & ->)].
        -- exists c. split; auto. split; auto. split; auto. destruct (existsb file_with_cases S); [|destruct I]. destruct I as [<-|[]]. exists (es ++ [nm]), c. split; [constructor|]. split; [now apply FC|reflexivity].
        -- exists c. split; auto. split; auto. split; auto. exists es', l'. split; auto. eapply e_down; eauto. rewrite <- E. exact I.
      * intros (c' & E & _ & _ & es' & l' & D1 & D2 & ->). injection E as <-. inversion D1; subst.
        -- left. rewrite (proj2 FC D2). now left.
        -- right. exists (NDir name false c0), c0. cbn. repeat split; auto. now exists es', l'.
    + assert (ND : NoDup (flat_map all_paths S)).
      { rewrite FS. clear -O1 IH' O2 Fe. induction c as [|n c IHc]; [constructor|]. cbn [flat_map map] in *. apply NoDup_cons_iff in O1 as [N O1].
        assert (Disj : forall p, In p (flat_map all_paths (scan_at (es ++ [nm]) n)) -> ~ In p (flat_map (fun n => flat_map all_paths (scan_at (es ++ [nm]) n)) c)).
        { intros p I J. apply in_flat_map in J as (m & J & K). destruct (proj2 (proj2 (IH' n (or_introl eq_refl))) p I) as (tl & E1 & T1). destruct (proj2 (proj2 (IH' m (or_intror J))) p K) as (tl' & E2 & T2). subst p.
          apply slashed_inj in E2.
          - apply app_inv_head in E2. injection E2 as E2 _. apply N. rewrite E2. apply in_map. exact J.
          - apply Forall_app. split; auto. constructor; auto. apply O2. now left.
          - apply Forall_app. split; auto. constructor; auto. apply O2. now right. }
        assert (N1 := proj1 (proj2 (IH' n (or_introl eq_refl)))). assert (N2 : NoDup (flat_map (fun n => flat_map all_paths (scan_at (es ++ [nm]) n)) c)).
        { apply IHc; auto; intros; [apply O2; now right|]. apply IH'. now right. }
        clear -N1 N2 Disj. induction (flat_map all_paths (scan_at (es ++ [nm]) n)) as [|q l IHl]; auto. cbn. inversion N1; subst. constructor.
        - rewrite in_app_iff. intros [J|J]; [auto|]. apply (Disj q); auto. now left.
        - apply IHl; auto. intros p I. apply Disj. now right. }
      destruct (existsb file_with_cases S); auto. cbn. constructor; auto. intros I. destruct (Tails _ I) as (x & tl & E & Gx & T). replace (es ++ nm :: x :: tl) with ((es ++ [nm]) ++ x :: tl) in E by now rewrite <- app_assoc.
      apply slashed_inj in E; auto; [|apply Forall_app; split; auto]. rewrite <- (app_nil_r (es ++ [nm])) in E at 1. apply app_inv_head in E. discriminate E.
    + intros p. rewrite in_app_iff. intros [I|I].
      * destruct (existsb file_with_cases S); [|destruct I]. destruct I as [<-|[]]. exists []. auto.
      * destruct (Tails _ I) as (x & tl & -> & Gx & T). exists (x :: tl). auto.
Qed.

(** Cases. *)
Definition case_at (es : list bytes) (l : list node) (q : list bytes) : Prop :=
  exists es' l' f d, explored excl subs es l es' l' /\ has_case excl subs es' l' f d /\ q = es' ++ [f; d_name d].
Lemma scan_cases n : forall es pre, Forall good es -> good (node_name n) -> (forall g c, n = NDir (node_name n) g c -> ok_nodes c) ->
  forall p, In (p, KCase) (flat_map (fun x => entries (pre ++ es ++ [i_name (hd x)]) x) (scan_at es n)) <->
    (exists f d ds q, n = NFile f (Some ds) /\ f = q ++ #"_test.go" /\ in_scope excl subs (es ++ [f]) /\ In d ds /\ listed d /\ p = pre ++ es ++ [f; d_name d]) \/
    (exists c q, n = NDir (node_name n) false c /\ in_scope excl subs (es ++ [node_name n]) /\ slashed (subs ++ es ++ [node_name n]) <> #"vendor" /\ case_at (es ++ [node_name n]) c q /\ p = pre ++ q).
Proof.
  induction n as [nm ds|nm g c IH] using node_ind'; intros es pre F G O p; cbn [scan node_name] in *; cbv zeta; rewrite scan_path_root by auto; rewrite child_slashed by auto.
  - split.
    + intros I. left. destruct (excl _) eqn:Ex; [destruct I|]. destruct (has_suffix _ _) eqn:Su; [|destruct I]. cbn [negb flat_map app] in I. rewrite app_nil_r in I.
      unfold file_item in I. cbv zeta in I. cbn [entries hd i_name i_kind] in I. destruct I as [I|I]; [discriminate I|]. destruct ds as [ds|]; [|destruct I].
      unfold parse_tests in I. apply in_flat_map in I as (x & I & J). apply in_map_iff in I as (d & <- & I). cbn in J. destruct J as [J|[]]. injection J as <-. apply filter_In in I as [I1 I2].
      apply suffix_iff in Su. apply suffix_of_path in Su as (q & Su); [|apply G]. exists nm, d, ds, q. repeat split; auto; try (now apply listed_iff). now rewrite <- !app_assoc.
    + intros [(f & d & ds' & q & E & Su & Ex & I & L & ->)|(c & q & E & _)]; [|discriminate E]. injection E as <- ->. unfold in_scope in Ex. rewrite Ex.
      rewrite (proj2 (suffix_iff (slashed (es ++ [nm])) #"_test.go")) by (apply suffix_of_path; [apply G|eauto]). cbn [negb flat_map app]. rewrite app_nil_r.
      unfold file_item. cbv zeta. cbn [entries hd i_name i_kind]. right. apply in_flat_map. exists (case_item (slashed (es ++ [nm])) d). split.
      * unfold parse_tests. apply in_map_iff. exists d. split; auto. apply filter_In. split; auto. now apply listed_iff.
      * cbn. left. rewrite <- !app_assoc. reflexivity.
  - assert (No : (exists f d ds q, NDir nm g c = NFile f (Some ds) /\ f = q ++ #"_test.go" /\ in_scope excl subs (es ++ [f]) /\ In d ds /\ listed d /\ p = pre ++ es ++ [f; d_name d]) -> False) by (intros (? & ? & ? & ? & E & _); discriminate E).
    destruct (excl (slashed (subs ++ es ++ [nm]))) eqn:Ex.
    { cbn. split; [intros []|]. intros [H|(c' & q & _ & H & _)]; [tauto|]. unfold in_scope in H. rewrite H in Ex. discriminate Ex. }
    destruct (eqs (slashed (subs ++ es ++ [nm])) #"vendor") eqn:V.
    { cbn. split; [intros []|]. intros [H|(c' & q & _ & _ & H & _)]; [tauto|]. apply eqs_eq in V. elim H. exact V. }
    destruct g.
    { cbn. split; [intros []|]. intros [H|(c' & q & E & _)]; [tauto|discriminate E]. }
    assert (V' : slashed (subs ++ es ++ [nm]) <> #"vendor"). { intros H. apply eqs_eq in H. rewrite H in V. discriminate V. }
    specialize (O _ _ eq_refl). inversion O as [l O1 O2 O3 O4]; subst. rewrite Forall_forall in IH.
    assert (Fe : Forall good (es ++ [nm])) by now apply good_snoc.
    cbn [flat_map entries hd i_name i_kind]. rewrite app_nil_r. cbn [In].
    assert (E : forall p, In (p, KCase) (flat_map (fun x => entries ((pre ++ es ++ [nm]) ++ [i_name (hd x)]) x) (flat_map (scan excl (slashed subs) (slashed (es ++ [nm]))) c)) <->
       exists n, In n c /\ In (p, KCase) (flat_map (fun x => entries (pre ++ (es ++ [nm]) ++ [i_name (hd x)]) x) (scan_at (es ++ [nm]) n))).
    { intros p'. rewrite in_flat_map. split.
      - intros (x & I & J). apply in_flat_map in I as (n & I & K). exists n. split; auto. apply in_flat_map. exists x. split; auto. now rewrite app_assoc.
      - intros (n & I & J). apply in_flat_map in J as (x & J & K). exists x. split; [apply in_flat_map; eauto|]. now rewrite <- app_assoc. }
    rewrite E. clear E. split.
    + intros [H|(n & I & J)]; [discriminate H|]. right. exists c.
      apply IH in J as [(f & d & ds & q & -> & Su & Sc & Id & L & ->)|(c' & q & En & Sc & Vn & (es' & l' & f & d & D1 & D2 & ->) & ->)]; auto.
      * exists ((es ++ [nm]) ++ [f; d_name d]). repeat split; auto. exists (es ++ [nm]), c, f, d. split; [constructor|]. split; auto. exists ds, q. auto.
      * exists (es' ++ [f; d_name d]). repeat split; auto. exists es', l', f, d. split; auto. eapply e_down; eauto. rewrite <- En. exact I.
      * intros g' c' X. rewrite X in I. eauto.
    + intros [H|(c' & q & E & _ & _ & (es' & l' & f & d & D1 & D2 & ->) & ->)]; [tauto|]. injection E as <-. right. inversion D1; subst.
      * destruct D2 as (ds & q & I & Su & Sc & Id & L). exists (NFile f (Some ds)). split; auto. apply IH; auto; [intros g' c' X; discriminate X|]. left. exists f, d, ds, q. auto 10.
      * exists (NDir name false c0). split; auto. apply IH; auto; [intros g' c' X; injection X as <- <-; eauto|]. right. exists c0, (es' ++ [f; d_name d]). cbn. repeat split; auto. exists es', l', f, d. auto.
Qed.

Variables (nm : bytes) (ns : list node).
Hypothesis Hns : ok_nodes ns.
Lemma root_children : children (scan_root excl (slashed subs) nm ns) = flat_map (fun n => scan_at [] n) ns /\ (subs = [] \/ in_scope excl subs []) \/
  children (scan_root excl (slashed subs) nm ns) = [] /\ ~ (subs = [] \/ in_scope excl subs []).
Proof.
  unfold scan_root. cbv zeta. cbn [children]. unfold in_scope. rewrite app_nil_r. destruct (slashed subs) eqn:E.
  - apply slashed_nil in E; auto.
  - rewrite <- E. destruct (excl (slashed subs)) eqn:Ex.
    + right. split; [reflexivity|]. intros [->|H]; [discriminate E|congruence].
    + left. split; [reflexivity|auto].
Qed.
Lemma root_at_path : at_path [] (scan_root excl (slashed subs) nm ns).
Proof.
  apply ap_node; [discriminate|reflexivity|constructor|]. intros x I. change (In x (children (scan_root excl (slashed subs) nm ns))) in I.
  destruct root_children as [[E _]|[E _]]; rewrite E in I; [|destruct I]. apply in_flat_map in I as (n & I & J). rewrite (scan_name _ _ _ J).
  inversion Hns as [l O1 O2 O3 O4]; subst. apply (scan_at_path n []); auto.
  - intros ds d X. rewrite X in I. eauto.
  - intros g c X. rewrite X in I. eauto.
Qed.
Lemma root_filter_at_path : at_path [] (filter_root (scan_root excl (slashed subs) nm ns)).
Proof.
  pose proof root_at_path as A. unfold filter_root. destruct (scan_root excl (slashed subs) nm ns) as [h c]. cbn [hd children]. inversion A; subst; [|destruct fs; discriminate].
  apply ap_node; auto. intros y I. change (In y (flat_map keep c)) in I. apply in_flat_map in I as (x & I & J). unfold keep in J. destruct (filter_item x) eqn:E; [|destruct J]. destruct J as [<-|[]].
  rewrite (filter_hd _ _ E). eapply at_path_filter; eauto.
Qed.
Lemma root_filter_ok : Forall filter_ok (children (scan_root excl (slashed subs) nm ns)).
Proof. rewrite Forall_forall. intros x I. apply filter_good. eapply shaped_children; [apply root_shaped|exact I]. Qed.
Lemma root_paths : (forall p, In p (all_paths (scan_root excl (slashed subs) nm ns)) <-> (subs = [] \/ in_scope excl subs []) /\ dir_of_case [] ns p) /\ NoDup (all_paths (scan_root excl (slashed subs) nm ns)).
Proof.
  inversion Hns as [l O1 O2 O3 O4]; subst.
  pose proof root_children as RC. unfold scan_root in *. cbv zeta in *. cbn [children] in RC. set (C := if match slashed subs with [] => false | _ => excl (slashed subs) end then [] else flat_map (scan excl (slashed subs) []) ns) in *.
  cbn [all_paths]. destruct RC as [[E S]|[E S]].
  2:{ rewrite E. cbn. split; [|constructor]. intros p. tauto. }
  rewrite E. clear C E. set (C := flat_map (fun n => scan_at [] n) ns).
  assert (FC : existsb file_with_cases C = true <-> exists f d, has_case excl subs [] ns f d) by exact (file_cases_iff [] ns (Forall_nil _) Hns).
  assert (FS : flat_map all_paths C = flat_map (fun n => flat_map all_paths (scan_at [] n)) ns). { unfold C. clear. induction ns as [|n c IHc]; [reflexivity|]. cbn [flat_map]. now rewrite flat_map_app, IHc. }
  assert (IH' : forall n, In n ns -> _) by (intros n I; exact (scan_paths n [] (Forall_nil _) (O2 n I) ltac:(intros g c X; rewrite X in I; eauto))).
  assert (ND : NoDup (flat_map all_paths C)).
  { rewrite FS. clear -O1 IH' O2. induction ns as [|n c IHc]; [constructor|]. cbn [flat_map map] in *. apply NoDup_cons_iff in O1 as [N O1].
    assert (Disj : forall p, In p (flat_map all_paths (scan_at [] n)) -> ~ In p (flat_map (fun n => flat_map all_paths (scan_at [] n)) c)).
    { intros p I J. apply in_flat_map in J as (m & J & K). destruct (proj2 (proj2 (IH' n (or_introl eq_refl))) p I) as (tl & E1 & T1). destruct (proj2 (proj2 (IH' m (or_intror J))) p K) as (tl' & E2 & T2). subst p.
      apply slashed_inj in E2.
      - cbn in E2. injection E2 as E2 _. apply N. rewrite E2. apply in_map. exact J.
      - cbn. constructor; auto. apply O2. now left.
      - cbn. constructor; auto. apply O2. now right. }
    assert (N1 := proj1 (proj2 (IH' n (or_introl eq_refl)))). assert (N2 : NoDup (flat_map (fun n => flat_map all_paths (scan_at [] n)) c)).
    { apply IHc; auto; intros; [apply O2; now right|]. apply IH'. now right. }
    clear -N1 N2 Disj. induction (flat_map all_paths (scan_at [] n)) as [|q l IHl]; auto. cbn. inversion N1; subst. constructor.
    - rewrite in_app_iff. intros [J|J]; [auto|]. apply (Disj q); auto. now left.
    - apply IHl; auto. intros p I. apply Disj. now right. }
  assert (Own : own_paths {| i_name := nm; i_under := []; i_rel := []; i_kind := KDir; i_cases := existsb file_with_cases C |} = if existsb file_with_cases C then [[]] else []) by reflexivity.
  rewrite Own. clear Own. split.
  - intros p. rewrite in_app_iff, FS, in_flat_map. split.
    + intros [I|(n & I & J)]; (split; [exact S|]).
      * destruct (existsb file_with_cases C); [|destruct I]. destruct I as [<-|[]]. exists [], ns. split; [constructor|]. split; [now apply FC|reflexivity].
      * apply (proj1 (IH' n I)) in J as (c' & En & A & B & es' & l' & D1 & D2 & ->). exists es', l'. split; auto. eapply e_down; eauto. rewrite <- En. exact I.
    + intros [_ (es' & l' & D1 & D2 & ->)]. inversion D1; subst.
      * left. rewrite (proj2 FC D2). now left.
      * right. exists (NDir name false c). split; auto. apply (proj1 (IH' _ H)). exists c. cbn. repeat split; auto. now exists es', l'.
  - destruct (existsb file_with_cases C); auto. cbn. constructor; auto. intros I. rewrite FS in I. apply in_flat_map in I as (n & I & J). destruct (proj2 (proj2 (IH' n I)) _ J) as (tl & E & T). symmetry in E. apply slashed_nil in E; [discriminate E|].
    cbn. constructor; auto.
Qed.
Lemma root_cases p : In (p, KCase) (entries [nm] (scan_root excl (slashed subs) nm ns)) <-> (subs = [] \/ in_scope excl subs []) /\ exists q, case_at [] ns q /\ p = nm :: q.
Proof.
  inversion Hns as [l O1 O2 O3 O4]; subst. pose proof root_children as RC. destruct (scan_root excl (slashed subs) nm ns) as [h c] eqn:R. cbn [children] in RC. cbn [entries].
  assert (i_kind h = KDir) as ->. { unfold scan_root in R. cbv zeta in R. now injection R as <- _. }
  destruct RC as [[-> S]|[-> S]].
  2:{ cbn. split; [intros [H|[]]; discriminate H|tauto]. }
  cbn [In]. split.
  - intros [H|H]; [discriminate H|]. split; auto. apply in_flat_map in H as (x & I & J). apply in_flat_map in I as (n & I & K).
    assert (L : In (p, KCase) (flat_map (fun x => entries ([nm] ++ [] ++ [i_name (hd x)]) x) (scan_at [] n))) by (apply in_flat_map; exists x; auto).
    apply scan_cases in L as [(f & d & ds & q & -> & Su & Sc & Id & L & ->)|(c' & q & En & Sc & Vn & (es' & l' & f & d & D1 & D2 & ->) & ->)]; auto.
    + exists [f; d_name d]. split; auto. exists [], ns, f, d. split; [constructor|]. split; auto. exists ds, q. auto.
    + exists (es' ++ [f; d_name d]). split; auto. exists es', l', f, d. split; auto. eapply e_down; eauto. rewrite <- En. exact I.
    + intros g c' X. rewrite X in I. eauto.
  - intros [_ (q & (es' & l' & f & d & D1 & D2 & ->) & ->)]. right.
    assert (L : exists n, In n ns /\ In (nm :: es' ++ [f; d_name d], KCase) (flat_map (fun x => entries ([nm] ++ [] ++ [i_name (hd x)]) x) (scan_at [] n))).
    { inversion D1; subst.
      - destruct D2 as (ds & q & I & Su & Sc & Id & L). exists (NFile f (Some ds)). split; auto. apply scan_cases; auto; [intros g' c' X; discriminate X|]. left. exists f, d, ds, q. auto 10.
      - exists (NDir name false c). split; auto. rename H into Hd. apply scan_cases; auto; [intros g' c' X; injection X as <- <-; eauto|]. right. exists c, (es' ++ [f; d_name d]). cbn. repeat split; auto. exists es', l', f, d. auto. }
    destruct L as (n & I & L). apply in_flat_map in L as (x & J & K). apply in_flat_map. exists x. split; auto. apply in_flat_map. eauto.
Qed.
End Scan.

(** ** C84 *)
(** Running the whole tree runs go test, with no -run, on every directory explored that has a listed test,
    and on no other, each named once. *)
Theorem C84_packages_run excl subs name ns root pfx : Forall good subs -> ok_nodes ns -> listing excl (slashed subs) name ns root ->
  NoDup (test_args root pfx) /\
  forall a, In a (test_args root pfx) <-> exists es l f d, starts excl subs ns es l /\ has_case excl subs es l f d /\ a = #"./" ++ slashed es.
Proof.
  intros HS HN L. unfold listing in L. destruct (sorted_perm _ _ L) as [P _].
  assert (K : i_kind (hd root) = KDir) by now rewrite <- (sorted_hd _ _ L).
  assert (A : test_args root pfx = map (fun p => #"./" ++ p) (all_paths root)). { unfold test_args, get_test_paths. rewrite K. reflexivity. }
  rewrite A. destruct (root_paths excl subs HS name ns HN) as [R ND].
  assert (FR : all_paths (filter_root (scan_root excl (slashed subs) name ns)) = all_paths (scan_root excl (slashed subs) name ns)).
  { unfold filter_root. pose proof (root_filter_ok excl subs name ns) as FO. destruct (scan_root excl (slashed subs) name ns) as [h c]. cbn [hd children all_paths] in *. f_equal. apply (keep_all c FO). }
  rewrite FR in P. split.
  - apply FinFun.Injective_map_NoDup; [intros x y E; now apply app_inv_head in E|]. eapply Permutation_NoDup; eauto.
  - intros a. rewrite in_map_iff. split.
    + intros (p & <- & I). apply (Permutation_in p (Permutation_sym P)) in I. apply R in I as (S & es & l & D & (f & d & C) & ->). exists es, l, f, d. split; [split; auto|]. auto.
    + intros (es & l & f & d & [S D] & C & ->). exists (slashed es). split; auto. apply (Permutation_in _ P). apply R. split; auto. exists es, l. eauto.
Qed.
(** What is marked as running is every node of the tree, at the address the page has for it. *)
Theorem C84_items_marked excl subs name ns root pfx : Forall good subs -> ok_nodes ns -> listing excl (slashed subs) name ns root ->
  snd (fst (get_test_paths root pfx)) = map fst (entries pfx root).
Proof.
  intros HS HN L. unfold listing in L. assert (K : i_kind (hd root) = KDir) by now rewrite <- (sorted_hd _ _ L).
  unfold get_test_paths. rewrite K. cbn [fst snd]. rewrite (at_path_entries root [] pfx), app_nil_r; auto.
  eapply at_path_sorted; [exact L|]. now apply root_filter_at_path.
Qed.

(** ** C85 *)
(** The cases of the tree are the listed functions of the test files of the directories explored. *)
Theorem C85_cases_listed excl subs name ns root : Forall good subs -> ok_nodes ns -> listing excl (slashed subs) name ns root ->
  forall p, In (p, KCase) (entries [name] root) <-> exists es l f d, starts excl subs ns es l /\ has_case excl subs es l f d /\ p = name :: es ++ [f; d_name d].
Proof.
  intros HS HN L p. unfold listing in L. destruct (sorted_perm _ _ L) as [_ P].
  assert (FR : In (p, KCase) (entries [name] (filter_root (scan_root excl (slashed subs) name ns))) <-> In (p, KCase) (entries [name] (scan_root excl (slashed subs) name ns))).
  { unfold filter_root. pose proof (root_filter_ok excl subs name ns) as FO. destruct (scan_root excl (slashed subs) name ns) as [h c]. cbn [hd children entries In] in *. pose proof (proj1 (proj2 (keep_all c FO)) [name] p) as Q.
    unfold keep in Q. rewrite Q. tauto. }
  assert (S : In (p, KCase) (entries [name] root) <-> In (p, KCase) (entries [name] (scan_root excl (slashed subs) name ns))).
  { rewrite <- FR. split; intros I; [exact (Permutation_in _ (Permutation_sym (P [name])) I)|exact (Permutation_in _ (P [name]) I)]. }
  rewrite S, root_cases by auto. split.
  - intros [St (q & (es & l & f & d & D & C & ->) & ->)]. exists es, l, f, d. split; [split; auto|auto].
  - intros (es & l & f & d & [St D] & C & ->). split; auto. exists (es ++ [f; d_name d]). split; auto. exists es, l, f, d. auto.
Qed.
(** No directory or file is shown without a case below it. *)
Theorem C85_no_empty_nodes excl subs name ns root : Forall good subs -> ok_nodes ns -> listing excl (slashed subs) name ns root ->
  forall x, In x (children root) -> forall at_ p k, In (p, k) (entries at_ x) -> exists q, In (p ++ q, KCase) (entries at_ x).
Proof.
  intros HS HN L x I.
  assert (F : full x).
  { unfold listing in L. unfold filter_root in L. inversion L as [h c c1 c2 F P Eh Er]; subst. cbn in I. apply (Permutation_in x (Permutation_sym P)) in I.
    set (c := flat_map _ _) in F. assert (G : forall y, In y c -> full y).
    { intros y J. subst c. apply (keep_all _ (root_filter_ok excl subs name ns)). exact J. }
    clearbody c. clear -F I G. induction F as [|y z c c1 S F IH]; [destruct I|]. destruct I as [<-|I]; [apply (sorted_full _ _ S), G; now left|]. apply IH; auto. intros w J. apply G. now right. }
  clear -F. induction x as [h c IH] using item_ind'; intros at_ p k I.
  destruct I as [I|I].
  - injection I as <- <-. now apply full_has_case.
  - apply in_flat_map in I as (y & I & J). rewrite Forall_forall in IH. inversion F; subst; [destruct I|]. destruct (IH y I (H2 y I) _ _ _ J) as (q & K). exists q. cbn [entries]. right. apply in_flat_map. eauto.
Qed.
(** The rule of the go command: TestXxx with Xxx not beginning with a lower-case letter (of ASCII, here), no
    receiver, a single parameter of type *testing.T, no results and no type parameters. *)
Definition lower (c : ascii) : Prop := 97 <= nat_of_ascii c <= 122.
Definition go_test (d : fdecl) : Prop :=
  (exists r, d_name d = #"Test" ++ r /\ (forall c r', r = c :: r' -> ~ lower c)) /\ d_recv d = false /\ d_testing_T d = true /\ d_results d = false /\ d_generic d = false /\ d_body d = true.
Definition sane (d : fdecl) : Prop := d_testing_T d = true -> d_params d = 1.
(** All tests of the directories explored are shown. *)
Theorem C85_all_tests_shown_partial excl subs name ns root : Forall good subs -> ok_nodes ns -> listing excl (slashed subs) name ns root ->
  forall es l f p ds d, starts excl subs ns es l -> In (NFile f (Some ds)) l -> f = p ++ #"_test.go" -> in_scope excl subs (es ++ [f]) -> In d ds -> sane d -> go_test d ->
  In (name :: es ++ [f; d_name d], KCase) (entries [name] root).
Proof.
  intros HS HN L es l f p ds d St I Su Sc Id Sa ((r & Nm & _) & _ & T & _ & _ & B). apply (C85_cases_listed excl subs name ns root HS HN L). exists es, l, f, d. split; auto. split; auto.
  exists ds, p. repeat split; auto. now exists r.
Qed.
(** Shown too: TestMain, methods, and names like Testify. *)
Theorem C85_only_tests_shown_refuted : exists name ns root d, ok_nodes ns /\ listing (fun _ => false) (slashed []) name ns root /\
  In ([name; #"x_test.go"; d_name d], KCase) (entries [name] root) /\ d_recv d = true /\ d_testing_T d = false /\ In (NFile #"x_test.go" (Some [d])) ns.
Proof.
  set (d := {| d_name := #"TestAll"; d_body := true; d_params := 1; d_recv := true; d_testing_T := false; d_results := false; d_generic := false |}).
  set (ns := [NFile #"x_test.go" (Some [d])]).
  exists #"m", ns, (filter_root (scan_root (fun _ => false) (slashed []) #"m" ns)), d. split; [|split; [|split; [|split; [|split]]]]; auto.
  - constructor.
    + cbn. constructor; [intros []|constructor].
    + intros n [<-|[]]. split; [discriminate|]. cbn. intuition discriminate.
    + intros x ds e [H|[]] J. injection H as <- <-. destruct J as [<-|[]]. split; [discriminate|]. cbn. intuition discriminate.
    + intros x g c [H|[]]. discriminate H.
  - unfold listing. assert (R : forall it, sorted_from it it). { induction it as [h c IH] using item_ind'. apply sorted_item with (c1 := c); auto. induction IH; constructor; auto. } apply R.
  - vm_compute. auto.
  - now left.
Qed.

(** *** A case: two packages, the second in a directory; vendor and another module are left out. *)
Definition ex_test (n : bytes) : fdecl := {| d_name := n; d_body := true; d_params := 1; d_recv := false; d_testing_T := true; d_results := false; d_generic := false |}.
Definition ex_tree : list node :=
  [NFile #"a_test.go" (Some [ex_test #"TestA"; ex_test #"helper"]); NFile #"a.go" (Some [ex_test #"TestNot"]);
   NDir #"pkg" false [NDir #"deep" false [NFile #"b_test.go" (Some [ex_test #"TestB"])]; NFile #"broken_test.go" None];
   NDir #"vendor" false [NFile #"v_test.go" (Some [ex_test #"TestV"])];
   NDir #"other" true [NFile #"o_test.go" (Some [ex_test #"TestO"])]].
Definition ex_root : item := filter_root (scan_root (fun _ => false) [] #"m" ex_tree).
Lemma sorted_self it : sorted_from it it.
Proof. induction it as [h c IH] using item_ind'. apply sorted_item with (c1 := c); auto. induction IH; constructor; auto. Qed.
Example explorer_example : listing (fun _ => false) (slashed []) #"m" ex_tree ex_root /\ ok_nodes ex_tree /\
  test_args ex_root [#"m"] = [#"./"; #"./pkg/deep"] /\
  map fst (entries [#"m"] ex_root) = [[#"m"]; [#"m"; #"a_test.go"]; [#"m"; #"a_test.go"; #"TestA"]; [#"m"; #"pkg"]; [#"m"; #"pkg"; #"deep"]; [#"m"; #"pkg"; #"deep"; #"b_test.go"]; [#"m"; #"pkg"; #"deep"; #"b_test.go"; #"TestB"]].
Proof.
  split; [apply sorted_self|]. split; [|split; vm_compute; reflexivity].
  assert (G : forall x : bytes, (match x with [] => false | _ => negb (existsb (Ascii.eqb "/"%char) x) end) = true -> good x).
  { intros x H. destruct x as [|a x]; [discriminate H|]. split; [discriminate|]. intros J. apply negb_true_iff in H. rewrite <- not_true_iff_false in H. apply H. apply existsb_exists. exists "/"%char. split; auto. }
  Ltac okn G := constructor; [cbn; repeat (constructor; [cbn; intuition discriminate|]); constructor|intros n I; repeat (destruct I as [<-|I]; [now apply G|]); destruct I
    |intros x ds d I J; repeat (destruct I as [I|I]; [try discriminate I; injection I as <- <-; repeat (destruct J as [<-|J]; [now apply G|]); destruct J|]); destruct I
    |intros x g c I; repeat (destruct I as [I|I]; [try discriminate I; injection I as <- <- <-; okn G|]); destruct I].
  okn G.
Qed.
