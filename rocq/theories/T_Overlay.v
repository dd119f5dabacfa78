(** * C28, C41, C42, C43: the build overlay.  Model: M_Overlay. *)
From Coq Require Import Ascii String List Arith Bool Lia Permutation Sorted.
From Verif Require Import M_Str M_Version M_Overlay T_Version.
Import ListNotations.
Open Scope nat_scope.

(** ** Specification *)
(** Following replacements: zero or more steps, one or more steps. *)
Inductive reach (g : file -> option file) : file -> file -> Prop :=
| reach_refl a : reach g a a
| reach_step a b c : g a = Some b -> reach g b c -> reach g a c.
Definition leads g a b := exists x, g a = Some x /\ reach g x b.
(** The file a chain of replacements starting at a ends in. *)
Definition ends (g : file -> option file) a t := reach g a t /\ g t = None.
Definition cyclic g := exists a, leads g a a.
(** Consecutive files of p replace each other. *)
Fixpoint steps (g : file -> option file) (p : list file) : Prop :=
  match p with a :: ((b :: _) as r) => g a = Some b /\ steps g r | _ => True end.

(** ** Maps *)
Lemma eqs_neq a b : a <> b -> eqs a b = false.
Proof. intros N. destruct (eqs a b) eqn:E; auto. apply eqs_eq in E. congruence. Qed.
Lemma get_put {V} (m : list (file * V)) k v k' : get (put m k v) k' = if eqs k k' then Some v else get m k'.
Proof.
  induction m as [|[a b] m IH]; simpl; auto. destruct (eqs a k) eqn:E; simpl.
  - apply eqs_eq in E. subst. destruct (eqs k k') eqn:E'; auto.
  - destruct (eqs a k') eqn:E'; [|apply IH]. destruct (eqs k k') eqn:E''; auto.
    apply eqs_eq in E', E''. subst. now rewrite eqs_refl in E.
Qed.
Lemma get_put_same {V} (m : list (file * V)) k v : get (put m k v) k = Some v.
Proof. now rewrite get_put, eqs_refl. Qed.
Lemma get_put_other {V} (m : list (file * V)) k v k' : k <> k' -> get (put m k v) k' = get m k'.
Proof. intros N. now rewrite get_put, (eqs_neq k k'). Qed.
Lemma get_none {V} (m : list (file * V)) k : get m k = None <-> ~ In k (keys m).
Proof.
  induction m as [|[a b] m IH]; simpl; [tauto|]. destruct (eqs a k) eqn:E.
  - apply eqs_eq in E. split; [discriminate|tauto].
  - rewrite IH. split; [|tauto]. intros N [->|I]; [now rewrite eqs_refl in E|tauto].
Qed.
Lemma get_in {V} (m : list (file * V)) k v : get m k = Some v -> In (k, v) m.
Proof.
  induction m as [|[a b] m IH]; simpl; [discriminate|]. destruct (eqs a k) eqn:E; auto.
  intros H. injection H as ->. apply eqs_eq in E. subst. auto.
Qed.
Lemma in_get {V} (m : list (file * V)) k v : NoDup (keys m) -> In (k, v) m -> get m k = Some v.
Proof.
  induction m as [|[a b] m IH]; simpl; [tauto|]. intros N [E|I].
  - injection E as -> ->. now rewrite eqs_refl.
  - inversion N; subst. rewrite eqs_neq; auto. intros ->. apply H1. now apply (in_map fst) in I.
Qed.
Lemma keys_put {V} (m : list (file * V)) k v x : In x (keys (put m k v)) <-> In x (keys m) \/ x = k.
Proof.
  induction m as [|[a b] m IH]; simpl; [firstorder congruence|]. destruct (eqs a k) eqn:E; simpl.
  - apply eqs_eq in E. subst. intuition congruence.
  - rewrite IH. tauto.
Qed.
Lemma nodup_put {V} (m : list (file * V)) k v : NoDup (keys m) -> NoDup (keys (put m k v)).
Proof.
  induction m as [|[a b] m IH]; simpl; intros N.
  - constructor; auto.
  - inversion N; subst. destruct (eqs a k) eqn:E; simpl.
    + constructor; auto.
    + constructor; auto. rewrite keys_put. intros [I| ->]; [auto|]. now rewrite eqs_refl in E.
Qed.
Lemma put_all_app c a b : put_all c (a ++ b) = put_all (put_all c a) b.
Proof. apply fold_left_app. Qed.
Lemma get_put_all ord : NoDup (keys ord) -> forall c k, get (put_all c ord) k = match get ord k with Some t => Some t | None => get c k end.
Proof.
  induction ord as [|[a b] ord IH]; simpl; auto. intros N c k. inversion N; subst. rewrite IH by auto.
  destruct (get ord k) eqn:G.
  - rewrite eqs_neq; auto. intros ->. apply get_in, (in_map fst) in G. contradiction.
  - rewrite get_put. now destruct (eqs a k).
Qed.
Lemma nodup_put_all ord : forall c, NoDup (keys c) -> NoDup (keys (put_all c ord)).
Proof. induction ord as [|[a b] ord IH]; simpl; auto. intros c N. apply IH, nodup_put, N. Qed.
Lemma nodup_canonical es : NoDup (keys (canonical_replace es)).
Proof.
  unfold canonical_replace. enough (H : forall m, NoDup (keys m) -> NoDup (keys (fold_left canonical_step es m))) by (apply H; constructor).
  induction es as [|e es IH]; simpl; auto. intros m N. apply IH. unfold canonical_step.
  destruct (get m (e_src e)); [|now apply nodup_put]. destruct (eqs _ _); [now apply nodup_put|auto].
Qed.
Lemma get_perm {V} (a b : list (file * V)) : NoDup (keys a) -> Permutation a b -> forall k, get a k = get b k.
Proof.
  intros N P k. assert (Nb : NoDup (keys b)) by (eapply Permutation_NoDup; [apply Permutation_map; exact P|exact N]).
  destruct (get a k) as [v|] eqn:Ga.
  - symmetry. apply in_get; auto. apply get_in in Ga. eapply Permutation_in; eauto.
  - symmetry. rewrite get_none in *. intros I. apply Ga. eapply Permutation_in; [|exact I]. apply Permutation_map. now symmetry.
Qed.

(** ** Chains *)
Lemma reach_trans g a b c : reach g a b -> reach g b c -> reach g a c.
Proof. induction 1; auto. intros H1. econstructor; eauto. Qed.
Lemma ends_unique g a t t' : ends g a t -> ends g a t' -> t = t'.
Proof.
  intros [R T]. revert t'. induction R as [a|a b c H R IH]; intros t' [R' T'].
  - inversion R'; subst; congruence.
  - inversion R'; subst; [congruence|]. replace b0 with b in * by congruence. apply IH; auto. now split.
Qed.
Lemma cycle_no_end g a b : reach g a b -> leads g a a -> g b <> None.
Proof.
  induction 1 as [a|a b c H R IH]; intros (x & E & Rx); [congruence|].
  apply IH. assert (x = b) by congruence. subst x. clear E.
  inversion Rx as [y Ey|y z w Ez Rz]; subst; [exists a; split; auto; constructor|]. exists z. split; auto.
  eapply reach_trans; [exact Rz|]. econstructor; [exact H|]. constructor.
Qed.
Lemma steps_app g p a : steps g (p ++ [a]) -> forall b, g a = Some b -> steps g (p ++ [a; b]).
Proof.
  induction p as [|x p IH]; intros H b E; [simpl; auto|]. destruct p as [|y p].
  - simpl in *. tauto.
  - destruct H as [H1 H2]. split; [exact H1|apply (IH H2 b E)].
Qed.
Lemma steps_reach g p a q b : steps g (p ++ a :: q ++ [b]) -> reach g a b /\ leads g a b.
Proof.
  intros S. assert (S' : steps g (a :: q ++ [b])).
  { induction p as [|x p IH]; auto. apply IH. simpl in S. destruct (p ++ a :: q ++ [b]) eqn:E; [now destruct p|]. apply S. }
  clear S. enough (L : leads g a b). { split; auto. destruct L as (x & E & R). econstructor; eauto. }
  revert a S'. induction q as [|x q IH]; intros a S; simpl in S.
  - destruct S as [E _]. exists b. split; auto. constructor.
  - destruct S as [E S]. destruct (IH x S) as (y & Ey & Ry). exists x. split; auto. econstructor; eauto.
Qed.

(** ** The resolver *)
Lemma mem_in l k : mem l k = true <-> In k l.
Proof.
  unfold mem. rewrite existsb_exists. split.
  - intros (x & I & E). apply eqs_eq in E. now subst.
  - intros I. exists k. split; auto. apply eqs_refl.
Qed.
Lemma del_id l k : ~ In k l -> del l k = l.
Proof.
  induction l as [|x l IH]; simpl; auto. intros N. rewrite eqs_neq by tauto. now rewrite IH by tauto.
Qed.
Definition resolved_ok g (r : fmap) := forall k t, get r k = Some t -> g k <> None /\ ends g k t.
Definition extends (r r' : fmap) := forall k t, get r k = Some t -> get r' k = Some t.
Definition bad_path g (p : list file) := steps g p /\ exists q b, p = q ++ [b] /\ In b q.

Lemma resolve_spec c : forall n rv path source,
  let g := get c in
  resolved_ok g rv -> NoDup path -> (forall x, In x path -> g x <> None) -> steps g (path ++ [source]) ->
  length c < n + length path ->
  match resolve n c rv (rev path) source path with
  | (Terminal t, rv', v') => ends g source t /\ v' = rev path /\ resolved_ok g rv' /\ extends rv rv' /\ (g source <> None -> get rv' source = Some t)
  | (Cycle p, _, _) => bad_path g p
  | (OutOfFuel, _, _) => False
  end.
Proof.
  induction n as [|n IH]; intros rv path source g Hr Nd Hp Hs Hf.
  - exfalso. assert (L : length path <= length (keys c)).
    { apply NoDup_incl_length; auto. intros x I. specialize (Hp x I). destruct (in_dec (list_eq_dec ascii_dec) x (keys c)) as [|N]; auto.
      apply get_none in N. unfold g in Hp. congruence. }
    unfold keys in L. rewrite map_length in L. lia.
  - cbn [resolve]. destruct (get rv source) as [t|] eqn:G.
    { destruct (Hr _ _ G) as [_ E]. split; [exact E|]. split; [reflexivity|]. split; [exact Hr|]. split; [intros ? ? ?; auto|auto]. }
    destruct (mem (rev path) source) eqn:M.
    { apply mem_in in M. apply in_rev in M. split; auto. eauto. }
    destruct (get c source) as [target|] eqn:T.
    2:{ split; [split; [constructor|exact T]|]. split; [reflexivity|]. split; [exact Hr|]. split; [intros ? ? ?; auto|]. unfold g. congruence. }
    assert (Nin : ~ In source path).
    { intros I. apply in_rev in I. apply mem_in in I. congruence. }
    specialize (IH rv (path ++ [source]) target). cbv zeta in IH. rewrite rev_app_distr in IH. cbn [rev app] in IH.
    assert (H1 : NoDup (path ++ [source])).
    { apply (Permutation_NoDup (l := source :: path)); [apply Permutation_cons_append|]. now constructor. }
    assert (H2 : forall x, In x (path ++ [source]) -> get c x <> None).
    { intros x I. apply in_app_or in I as [I|[->|[]]]; [now apply Hp|congruence]. }
    assert (H3 : steps (get c) ((path ++ [source]) ++ [target])).
    { rewrite <- app_assoc. simpl. now apply steps_app. }
    assert (H4 : length c < n + length (path ++ [source])) by (rewrite app_length; simpl; lia).
    specialize (IH Hr H1 H2 H3 H4).
    destruct (resolve n c rv (source :: rev path) target (path ++ [source])) as [[[t|p|] rv'] v']; auto.
    destruct IH as (E & -> & Ok & Ex & _).
    assert (Es : ends g source t) by (destruct E as [R N]; split; auto; econstructor; eauto).
    split; auto. split; [|split; [|split]].
    + simpl. rewrite eqs_refl. apply del_id. intros I. apply Nin. now apply in_rev.
    + intros k t' H. rewrite get_put in H. destruct (eqs source k) eqn:Q; [|now apply Ok].
      apply eqs_eq in Q. injection H as <-. subst. split; auto. unfold g. congruence.
    + intros k t' H. rewrite get_put. rewrite eqs_neq; [now apply Ex|]. intros ->. congruence.
    + intros _. apply get_put_same.
Qed.
Lemma resolve_keys_spec c : forall ks rv, resolved_ok (get c) rv ->
  match resolve_keys c rv [] ks with
  | inl p => bad_path (get c) p
  | inr r => resolved_ok (get c) r /\ extends rv r /\ forall k, In k ks -> get c k <> None -> get r k <> None
  end.
Proof.
  induction ks as [|k ks IH]; intros rv H; cbn [resolve_keys].
  - split; auto. split; [intros ? ? ?; auto|]. intros k [].
  - pose proof (resolve_spec c (S (length c)) rv [] k H (NoDup_nil _)) as R. cbn [rev app length] in R.
    assert (R1 : forall x : file, In x [] -> get c x <> None) by (intros x []).
    specialize (R R1 I ltac:(lia)).
    destruct (resolve (S (length c)) c rv [] k []) as [[[t|p|] rv'] v']; auto; [|contradiction].
    destruct R as (E & -> & Ok & Ex & Rk). specialize (IH rv' Ok). destruct (resolve_keys c rv' [] ks) as [p|r]; auto.
    destruct IH as (Ok' & Ex' & Rks). split; auto. split; [intros ? ? ?; auto|].
    intros k' [<-|I] N; auto. rewrite (Ex' k t); [discriminate|]. auto.
Qed.
Lemma insert_perm x l : Permutation (insert_str x l) (x :: l).
Proof.
  induction l as [|y l IH]; simpl; auto. destruct (str_lt y x); auto. rewrite IH. apply perm_swap.
Qed.
Lemma sort_perm l : Permutation (sort_strings l) l.
Proof. induction l as [|x l IH]; simpl; auto. rewrite insert_perm. now constructor. Qed.

(** Any map, composed: exact. *)
Lemma compose_keys c : let g := get c in
  match resolve_keys c [] [] (sort_strings (keys c)) with
  | inl p => bad_path g p
  | inr r => ~ cyclic g /\ forall a t, get r a = Some t <-> g a <> None /\ ends g a t
  end.
Proof.
  intros g. pose proof (resolve_keys_spec c (sort_strings (keys c)) []) as H.
  assert (H0 : resolved_ok (get c) []) by (intros k t E; discriminate). specialize (H H0).
  destruct (resolve_keys c [] [] (sort_strings (keys c))) as [p|r]; auto. destruct H as (Ok & _ & All).
  assert (D : forall a, g a <> None -> exists t, get r a = Some t /\ ends g a t).
  { intros a N. assert (I : In a (sort_strings (keys c))).
    { eapply Permutation_in; [symmetry; apply sort_perm|]. destruct (in_dec (list_eq_dec ascii_dec) a (keys c)) as [|N']; auto.
      apply get_none in N'. unfold g in N. congruence. }
    specialize (All a I N). destruct (get r a) as [t|] eqn:E; [|congruence]. exists t. split; auto. now apply Ok. }
  split.
  - intros [a L]. assert (N : g a <> None) by (destruct L as (x & E & _); congruence).
    destruct (D a N) as (t & _ & R & T). now apply (cycle_no_end g a t R L).
  - intros a t. split; [apply Ok|]. intros [N E]. destruct (D a N) as (t' & G & E'). now rewrite (ends_unique g a t t' E E').
Qed.
Lemma bad_path_cyclic g p : bad_path g p -> cyclic g.
Proof.
  intros (S & q & b & -> & I). apply in_split in I as (x & y & ->). rewrite <- app_assoc in S. simpl in S.
  exists b. now apply (steps_reach g x b y b).
Qed.

(** The effective replacement of a path: the generated one if there is one, otherwise the
    caller's. *)
Definition effective (caller generated : fmap) (k : file) : option file :=
  match get generated k with Some t => Some t | None => get caller k end.

(** For all overlays, in any iteration order: an error names a chain of replacements that
    comes back to a file on it; otherwise there is no cycle, every replaced path is mapped
    to the end of its chain, no other path is mapped, and no target is itself replaced. *)
Theorem C28_composed_exact :
  forall (res sym : file -> file) (caller generated ord_caller ord_generated : fmap),
  let c := canonical_replace (parse res sym caller) in
  let d := canonical_replace (parse res sym generated) in
  let g := effective c d in
  Permutation ord_caller c -> Permutation ord_generated d ->
  match compose ord_caller ord_generated with
  | inl p => cyclic g /\ steps g p /\ exists q b, p = q ++ [b] /\ In b q
  | inr r =>
      ~ cyclic g /\
      (forall a t, get r a = Some t <-> g a <> None /\ ends g a t) /\
      (forall a t, get r a = Some t -> get r t = None)
  end.
Proof.
  intros res sym caller generated o1 o2 c d g P1 P2. unfold compose. set (comb := put_all (put_all [] o1) o2).
  assert (N1 : NoDup (keys o1)) by (eapply Permutation_NoDup; [apply Permutation_map; symmetry; exact P1|apply nodup_canonical]).
  assert (N2 : NoDup (keys o2)) by (eapply Permutation_NoDup; [apply Permutation_map; symmetry; exact P2|apply nodup_canonical]).
  assert (E : forall k, get comb k = g k).
  { intros k. unfold comb, g, effective. rewrite get_put_all by auto. rewrite (get_perm o2 d N2 P2). rewrite get_put_all by auto.
    rewrite (get_perm o1 c N1 P1). simpl. destruct (get d k); auto. now destruct (get c k). }
  pose proof (compose_keys comb) as H. cbv zeta in H. destruct (resolve_keys comb [] [] (sort_strings (keys comb))) as [p|r].
  - assert (S : bad_path g p).
    { destruct H as [S Q]. split; auto. clear -S E. induction p as [|a p IH]; auto. destruct p as [|b p]; auto.
      destruct S as [S1 S2]. split; [now rewrite <- E|now apply IH]. }
    split; [now apply (bad_path_cyclic g p)|exact S].
  - destruct H as [A X].
    assert (RE : forall a b, reach (get comb) a b <-> reach g a b).
    { intros a b. split; induction 1; try constructor; econstructor; eauto; [now rewrite <- E|now rewrite E]. }
    assert (X' : forall a t, get r a = Some t <-> g a <> None /\ ends g a t).
    { intros a t. rewrite X. unfold ends. now rewrite RE, !E. }
    split; [|split; auto].
    + intros (a & x & Ex & R). apply A. exists a, x. split; [now rewrite E|now apply RE].
    + intros a t H. apply X' in H as (_ & _ & T). destruct (get r t) as [u|] eqn:U; auto. apply X' in U as [U _]. congruence.
Qed.
Print Assumptions C28_composed_exact.

(** ** Which target a path gets when the caller spells it in several ways *)
Section Alias.
Variables res sym : file -> file.
Let canon (f : file) : file := sym (res f).
Lemma canonical_snoc es e : canonical_replace (es ++ [e]) = canonical_step (canonical_replace es) e.
Proof. unfold canonical_replace. now rewrite fold_left_app. Qed.
Lemma parse_app a b : parse res sym (a ++ b) = parse res sym a ++ parse res sym b.
Proof. apply map_app. Qed.
Lemma alias_spec m : NoDup (keys m) -> forall c,
  (get (canonical_replace (parse res sym m)) c = None <-> forall k v, In (k, v) m -> canon k <> c) /\
  (forall t, get (canonical_replace (parse res sym m)) c = Some t -> exists k v, In (k, v) m /\ canon k = c /\ canon v = t) /\
  (forall v, In (c, v) m -> canon c = c -> get (canonical_replace (parse res sym m)) c = Some (canon v)).
Proof.
  induction m as [|[s t] m IH] using rev_ind; intros N c.
  - simpl. repeat split; intros; try discriminate; tauto.
  - unfold keys in N. rewrite map_app in N. simpl in N.
    assert (N' : NoDup (keys m)) by (apply NoDup_remove_1 in N; now rewrite app_nil_r in N).
    assert (Ns : ~ In s (keys m)) by (apply NoDup_remove_2 in N; now rewrite app_nil_r in N).
    rewrite parse_app. simpl parse. rewrite canonical_snoc.
    destruct (IH N' c) as (I1 & I2 & I3). set (r := canonical_replace (parse res sym m)) in *.
    assert (Hnr : get (canonical_step r (Entry s (res s) (sym (res s)) (res t) (sym (res t)))) c =
      if eqs (canon s) c then (match get r (canon s) with Some u => if eqs s (canon s) then Some (canon t) else Some u | None => Some (canon t) end) else get r c).
    { unfold canonical_step. cbn [e_input e_src e_tgt]. fold (canon s) (canon t).
      destruct (get r (canon s)) as [u|] eqn:G; [destruct (eqs s (canon s))|]; rewrite ?get_put; destruct (eqs (canon s) c) eqn:Q; auto.
      apply eqs_eq in Q. now rewrite <- Q. }
    rewrite Hnr. clear Hnr.
    destruct (list_eq_dec ascii_dec (canon s) c) as [Ec|Ec].
    + subst c. rewrite eqs_refl. destruct (get r (canon s)) as [u|] eqn:G.
      * destruct (eqs s (canon s)) eqn:P.
        -- apply eqs_eq in P. split; [|split].
           ++ split; [discriminate|]. intros H. exfalso. apply (H s t); auto. apply in_or_app. simpl. auto.
           ++ intros t' H. injection H as <-. exists s, t. split; [apply in_or_app; simpl; auto|auto].
           ++ intros v I _. apply in_app_or in I as [I|[I|[]]]; [|congruence]. exfalso. apply Ns. rewrite P. now apply (in_map fst) in I.
        -- split; [|split].
           ++ split; [discriminate|]. intros H. exfalso. apply (H s t); auto. apply in_or_app. simpl. auto.
           ++ intros t' H. injection H as <-. destruct (I2 u eq_refl) as (k & v & I & Q). exists k, v. split; auto. apply in_or_app. auto.
           ++ intros v I Q. apply in_app_or in I as [I|[I|[]]]; [now apply I3|]. exfalso. injection I as E1 E2.
              rewrite <- E1 in P. rewrite eqs_refl in P. discriminate.
      * split; [|split].
        -- split; [discriminate|]. intros H. exfalso. apply (H s t); auto. apply in_or_app. simpl. auto.
        -- intros t' H. injection H as <-. exists s, t. split; [apply in_or_app; simpl; auto|auto].
        -- intros v I Q. apply in_app_or in I as [I|[I|[]]]; [|congruence]. specialize (I3 v I Q). congruence.
    + rewrite (eqs_neq (canon s) c) by auto. split; [|split].
      * rewrite I1. split; intros H k v I; [|apply (H k v), in_or_app; auto].
        apply in_app_or in I as [I|[I|[]]]; [now apply (H k v)|]. injection I as <- <-. auto.
      * intros t' H. destruct (I2 t' H) as (k & v & I & Q). exists k, v. split; auto. apply in_or_app; auto.
      * intros v I Q. apply in_app_or in I as [I|[I|[]]]; [now apply I3|]. injection I as <- <-. congruence.
Qed.
End Alias.

(** A path the caller spells canonically gets the target given for that spelling; a path
    spelled in only one way gets its target; a path not named gets none. *)
Theorem C28_caller_targets :
  forall (res sym : file -> file) (m : fmap), NoDup (keys m) ->
  let canon f := sym (res f) in
  let r := canonical_replace (parse res sym m) in
  (forall c v, In (c, v) m -> canon c = c -> get r c = Some (canon v)) /\
  (forall k v, In (k, v) m -> (forall k', In k' (keys m) -> canon k' = canon k -> k' = k) -> get r (canon k) = Some (canon v)) /\
  (forall c, get r c = None <-> forall k v, In (k, v) m -> canon k <> c).
Proof.
  intros res sym m N canon r. split; [|split].
  - intros c v I E. now apply (alias_spec res sym m N c).
  - intros k v I U. destruct (alias_spec res sym m N (canon k)) as (A & B & _). fold r in A, B.
    destruct (get r (canon k)) as [t|] eqn:G.
    + destruct (B t eq_refl) as (k' & v' & I' & E & <-). fold (canon k') in E. assert (k' = k) by (apply U; auto; now apply (in_map fst) in I').
      subst k'. apply (in_get m k v N) in I. apply (in_get m k v' N) in I'. unfold canon. congruence.
    + exfalso. destruct A as [A _]. now apply (A eq_refl k v).
  - intros c. now apply (alias_spec res sym m N c).
Qed.
Print Assumptions C28_caller_targets.

(** ** Projection onto the caller's spellings *)
Lemma project_get (sym : file -> file) es : (forall x, sym (sym x) = sym x) ->
  forall m, (forall e, In e es -> e_src e = sym (e_src_res e)) ->
  forall a, (get (project es m) a = get m a /\ (forall e, In e es -> e_src_res e = a -> get m (e_src e) = None \/ get m a = get m (e_src e))) \/
            (exists e, In e es /\ e_src_res e = a /\ get (project es m) a = get m (e_src e) /\ get m (e_src e) <> None).
Proof.
  intros Idem. induction es as [|e es IH]; intros m Hs a.
  - left. split; auto. intros e [].
  - unfold project. cbn [fold_left].
    set (m' := match get m (e_src e) with Some t => put m (e_src_res e) t | None => m end).
    change (fold_left _ es m') with (project es m').
    (* lookups at canonical sources are not changed *)
    assert (C : forall e', In e' (e :: es) -> get m' (e_src e') = get m (e_src e')).
    { intros e' I. unfold m'. destruct (get m (e_src e)) as [t|] eqn:G; auto. rewrite get_put.
      destruct (eqs (e_src_res e) (e_src e')) eqn:Q; auto. apply eqs_eq in Q.
      assert (Q2 : e_src e = e_src e').
      { rewrite (Hs e (or_introl eq_refl)), Q, (Hs e' I). apply Idem. }
      congruence. }
    destruct (IH m' (fun x I => Hs x (or_intror I)) a) as [[E U]|(x & I & Ex & E & N)].
    + unfold m' in E at 2. destruct (get m (e_src e)) as [t|] eqn:G.
      * rewrite get_put in E. destruct (eqs (e_src_res e) a) eqn:Q.
        -- apply eqs_eq in Q. right. exists e. rewrite G. split; [left; auto|]. split; auto. split; auto. discriminate.
        -- left. split; auto. intros x [<-|I] Ex; [subst; now rewrite eqs_refl in Q|].
           destruct (U x I Ex) as [U'|U']; rewrite (C x (or_intror I)) in U'; auto. right.
           rewrite <- U'. unfold m'. rewrite get_put. now rewrite Q.
      * left. split; auto. intros x [<-|I] Ex; auto.
    + right. exists x. rewrite (C x (or_intror I)) in *. auto using in_cons.
Qed.

(** What the go command is given: every spelling the caller used is replaced by the end
    of the chain, the other entries are those of the composition, and no target is itself
    replaced. *)
Theorem C28_projected :
  forall (res sym : file -> file) (caller generated ord_caller ord_generated r : fmap),
  (forall x, sym (sym x) = sym x) -> NoDup (keys caller) -> NoDup (keys generated) ->
  let c := canonical_replace (parse res sym caller) in
  let d := canonical_replace (parse res sym generated) in
  let g := effective c d in
  Permutation ord_caller c -> Permutation ord_generated d ->
  compose ord_caller ord_generated = inr r ->
  let final := project (parse res sym caller) r in
  (forall k, In k (keys caller) -> exists t, ends g (sym (res k)) t /\ get final (res k) = Some t /\ get final (sym (res k)) = Some t) /\
  (forall a, g a <> None -> exists t, ends g a t /\ get final a = Some t) /\
  (forall a t, get final a = Some t -> get r a = Some t \/ exists k, In k (keys caller) /\ a = res k) /\
  (forall a t, get final a = Some t -> get final t = None).
Proof.
  intros res sym caller generated o1 o2 r Idem Nc Nd c d g P1 P2 Cm final.
  pose proof (C28_composed_exact res sym caller generated o1 o2 P1 P2) as X. rewrite Cm in X. fold c d g in X. destruct X as (Ac & X & _).
  assert (Hs : forall e, In e (parse res sym caller) -> e_src e = sym (e_src_res e) /\ In (e_input e) (keys caller) /\ e_src_res e = res (e_input e)).
  { intros e I. apply in_map_iff in I as ([s t] & <- & I). simpl. split; auto. split; auto. now apply (in_map fst) in I. }
  assert (Hg : forall k, In k (keys caller) -> g (sym (res k)) <> None).
  { intros k I. unfold g, effective. destruct (get d (sym (res k))); [discriminate|].
    apply in_map_iff in I as ([k' v] & <- & I). simpl. intros E. destruct (alias_spec res sym caller Nc (sym (res k'))) as ((A & _) & _).
    fold c in A. now apply (A E k' v). }
  assert (Rd : forall a, g a <> None -> exists t, get r a = Some t /\ ends g a t).
  { intros a N. pose proof (C28_composed_exact res sym caller generated o1 o2 P1 P2) as Y. rewrite Cm in Y.
    destruct (get r a) as [t|] eqn:G; [exists t; split; auto; now apply X|]. exfalso.
    unfold compose in Cm. set (comb := put_all (put_all [] o1) o2) in *.
    pose proof (resolve_keys_spec comb (sort_strings (keys comb)) []) as Z.
    assert (Z0 : resolved_ok (get comb) []) by (intros k t E; discriminate). specialize (Z Z0). rewrite Cm in Z. destruct Z as (_ & _ & Z).
    assert (E : get comb a = g a).
    { assert (N1 : NoDup (keys o1)) by (eapply Permutation_NoDup; [apply Permutation_map; symmetry; exact P1|apply nodup_canonical]).
      assert (N2 : NoDup (keys o2)) by (eapply Permutation_NoDup; [apply Permutation_map; symmetry; exact P2|apply nodup_canonical]).
      unfold comb, g, effective. rewrite get_put_all by auto. rewrite (get_perm o2 d N2 P2). rewrite get_put_all by auto.
      rewrite (get_perm o1 c N1 P1). simpl. destruct (get d a); auto. now destruct (get c a). }
    assert (I : In a (sort_strings (keys comb))).
    { eapply Permutation_in; [symmetry; apply sort_perm|]. destruct (in_dec (list_eq_dec ascii_dec) a (keys comb)) as [|N']; auto.
      apply get_none in N'. congruence. }
    apply (Z a I); congruence. }
  assert (Pg : forall a, (get final a = get r a /\ (forall e, In e (parse res sym caller) -> e_src_res e = a -> get r (e_src e) = None \/ get r a = get r (e_src e))) \/
            (exists e, In e (parse res sym caller) /\ e_src_res e = a /\ get final a = get r (e_src e) /\ get r (e_src e) <> None)).
  { apply project_get with (sym := sym); auto. intros e I. now apply Hs. }
  assert (Same : forall a, g a <> None -> get final a = get r a).
  { intros a N. destruct (Pg a) as [[E _]|(e & I & Ea & E & _)]; auto. rewrite E.
    (* a is a resolved spelling that is itself replaced: it is canonical *)
    destruct (Rd a N) as (t & G & _).
    assert (Ca : sym a = a).
    { unfold g, effective in N. destruct (alias_spec res sym caller Nc a) as (_ & B1 & _), (alias_spec res sym generated Nd a) as (_ & B2 & _).
      fold c in B1. fold d in B2. destruct (get d a) as [u|].
      - destruct (B2 u eq_refl) as (k & v & _ & <- & _). apply Idem.
      - destruct (get c a) as [u|]; [|congruence]. destruct (B1 u eq_refl) as (k & v & _ & <- & _). apply Idem. }
    destruct (Hs e I) as (Es & _). rewrite Es, Ea, Ca. reflexivity. }
  split; [|split; [|split]].
  - intros k I. destruct (Rd _ (Hg k I)) as (t & G & En). exists t. split; auto. split.
    + pose proof I as I0. apply in_map_iff in I as ([k' v] & Ek & I). simpl in Ek. subst k'.
      assert (Ie : In (Entry k (res k) (sym (res k)) (res v) (sym (res v))) (parse res sym caller)) by (apply in_map_iff; exists (k, v); auto).
      destruct (Pg (res k)) as [[E U]|(e & I' & Ea & E & _)].
      * destruct (U _ Ie eq_refl) as [U'|U']; simpl in U'; congruence.
      * rewrite E. destruct (Hs e I') as (Es & _). rewrite Es, Ea. auto.
    + rewrite Same; auto.
  - intros a N. destruct (Rd a N) as (t & G & En). exists t. split; auto. rewrite Same; auto.
  - intros a t H. destruct (Pg a) as [[E _]|(e & I & Ea & E & _)]; [left; congruence|]. right. destruct (Hs e I) as (_ & Ik & Er).
    exists (e_input e). split; auto. congruence.
  - intros a t H.
    assert (Et : exists b, get r b = Some t).
    { destruct (Pg a) as [[E _]|(e & I & Ea & E & _)]; rewrite E in H; eauto. }
    destruct Et as (b & Eb). apply X in Eb as (Nb & Rb & Tb).
    assert (Ct : sym t = t).
    { assert (L : exists y, g y = Some t).
      { clear -Rb Nb Tb. revert Nb. induction Rb as [x|x y z E R IH]; intros Nb; [congruence|].
        inversion R as [w Ew|w w' w'' Ew Rw]; subst; [eauto|]. apply IH; auto. congruence. }
      destruct L as (y & Ey). unfold g, effective in Ey.
      destruct (alias_spec res sym caller Nc y) as (_ & B1 & _), (alias_spec res sym generated Nd y) as (_ & B2 & _).
      fold c in B1. fold d in B2. destruct (get d y) as [u|].
      - injection Ey as ->. destruct (B2 t eq_refl) as (k & v & _ & _ & <-). apply Idem.
      - destruct (B1 t Ey) as (k & v & _ & _ & <-). apply Idem. }
    destruct (Pg t) as [[E _]|(e & I & Ea & E & N)].
    + rewrite E. destruct (get r t) as [u|] eqn:U; auto. apply X in U as [U _]. congruence.
    + exfalso. destruct (Hs e I) as (Es & _). rewrite Es, Ea, Ct in N. destruct (get r t) as [u|] eqn:U; [|congruence]. apply X in U as [U _]. congruence.
Qed.
Print Assumptions C28_projected.

(** Non-vacuous: a caller chain A -> B, instrumented B -> C, with a second spelling L of A. *)
Definition ex_sym (f : file) : file := if eqs f #"/l/a.go" then #"/p/a.go" else f.
Example C28_example :
  let caller := [(#"/l/a.go", #"/p/b.go")] in
  let generated := [(#"/p/b.go", #"/gen/b.go"); (#"/p/x.go", #"/gen/x.go")] in
  (forall x, ex_sym (ex_sym x) = ex_sym x) /\
  canonical_replace (parse (fun f => f) ex_sym caller) = [(#"/p/a.go", #"/p/b.go")] /\
  match compose (canonical_replace (parse (fun f => f) ex_sym caller)) (canonical_replace (parse (fun f => f) ex_sym generated)) with
  | inr r => project (parse (fun f => f) ex_sym caller) r =
       [(#"/p/b.go", #"/gen/b.go"); (#"/p/a.go", #"/gen/b.go"); (#"/p/x.go", #"/gen/x.go"); (#"/l/a.go", #"/gen/b.go")]
  | inl _ => False
  end /\
  compose [(#"a", #"b"); (#"b", #"c")] [(#"c", #"b")] = inl [#"a"; #"b"; #"c"; #"b"].
Proof.
  split; [|split; [|split]]; try reflexivity.
  intros x. unfold ex_sym. destruct (eqs x #"/l/a.go") eqn:E; [reflexivity|]. now rewrite E.
Qed.

(** ** C41: the composition does not depend on the iteration order of Go maps *)
Lemma insert_sorted_str x l : Sorted.StronglySorted (fun a b => str_lt b a = false) l -> Sorted.StronglySorted (fun a b => str_lt b a = false) (insert_str x l).
Proof.
  induction 1 as [|y l S IH F]; simpl; [repeat constructor|]. destruct (str_lt y x) eqn:E.
  - constructor; auto. rewrite insert_perm. constructor; auto.
    unfold str_lt in *. destruct (str_cmp x y) eqn:Q; auto. rewrite (to_sym _ str_order y x) in Q.
    destruct (str_cmp y x); discriminate.
  - constructor; [constructor; auto|]. constructor; auto.
    eapply Forall_impl; [|exact F]. simpl. intros z Z. unfold str_lt in *.
    destruct (str_cmp z x) eqn:Q; auto. exfalso.
    destruct (str_cmp z y) eqn:Q1; try discriminate.
    + apply str_order in Q1. subst z. now rewrite Q in E.
    + assert (Q2 : str_cmp y z = Lt) by (rewrite (to_sym _ str_order z y), Q1; reflexivity).
      now rewrite (to_trans _ str_order y z x Q2 Q) in E.
Qed.
Lemma sort_sorted l : Sorted.StronglySorted (fun a b => str_lt b a = false) (sort_strings l).
Proof. induction l; simpl; [constructor|]. now apply insert_sorted_str. Qed.
Lemma sorted_unique a : forall b, Sorted.StronglySorted (fun a b => str_lt b a = false) a -> Sorted.StronglySorted (fun a b => str_lt b a = false) b -> Permutation a b -> a = b.
Proof.
  induction a as [|x a IH]; intros b Sa Sb P; [apply Permutation_nil in P; now subst|].
  destruct b as [|y b]; [symmetry in P; apply Permutation_nil in P; discriminate|].
  inversion Sa as [|? ? Sa' Fa]; inversion Sb as [|? ? Sb' Fb]; subst.
  assert (E : x = y).
  { assert (Ix : In x (y :: b)) by (eapply Permutation_in; [exact P|left; auto]).
    assert (Iy : In y (x :: a)) by (eapply Permutation_in; [symmetry; exact P|left; auto]).
    destruct Ix as [->|Ix]; auto. destruct Iy as [->|Iy]; auto.
    rewrite Forall_forall in Fa, Fb. specialize (Fa y Iy). specialize (Fb x Ix). unfold str_lt in *.
    apply str_order. rewrite (to_sym _ str_order y x) in *. destruct (str_cmp y x) eqn:Q; auto; discriminate. }
  subst y. f_equal. apply IH; auto. eapply Permutation_cons_inv; eauto.
Qed.
Lemma sort_perm_eq a b : Permutation a b -> sort_strings a = sort_strings b.
Proof. intros P. apply sorted_unique; try apply sort_sorted. rewrite !sort_perm. exact P. Qed.
Lemma resolve_ext c c' : (forall k, get c k = get c' k) -> forall n rv vis s p, resolve n c rv vis s p = resolve n c' rv vis s p.
Proof.
  intros E. induction n as [|n IH]; intros; simpl; auto. destruct (get rv s); auto. destruct (mem vis s); auto. rewrite E.
  destruct (get c' s); auto. now rewrite IH.
Qed.
Lemma resolve_keys_ext c c' : (forall k, get c k = get c' k) -> length c = length c' -> forall ks rv vis, resolve_keys c rv vis ks = resolve_keys c' rv vis ks.
Proof.
  intros E L. induction ks as [|k ks IH]; intros; cbn [resolve_keys]; auto. rewrite L, (resolve_ext c c' E).
  destruct (resolve _ c' rv vis k []) as [[[t|p|] rv'] v']; auto.
Qed.

(** The same error or the same overlay, whatever the order in which the two canonical
    maps are visited. *)
Theorem C41_compose_order :
  forall a a' b b' : fmap, NoDup (keys a) -> NoDup (keys b) -> Permutation a a' -> Permutation b b' -> compose a b = compose a' b'.
Proof.
  intros a a' b b' Na Nb Pa Pb. unfold compose.
  assert (Na' : NoDup (keys a')) by (eapply Permutation_NoDup; [apply Permutation_map; exact Pa|exact Na]).
  assert (Nb' : NoDup (keys b')) by (eapply Permutation_NoDup; [apply Permutation_map; exact Pb|exact Nb]).
  set (x := put_all (put_all [] a) b). set (y := put_all (put_all [] a') b').
  assert (E : forall k, get x k = get y k).
  { intros k. unfold x, y. rewrite !get_put_all by auto. now rewrite (get_perm a a' Na Pa), (get_perm b b' Nb Pb). }
  assert (Nx : NoDup (keys x)) by (apply nodup_put_all, nodup_put_all; constructor).
  assert (Ny : NoDup (keys y)) by (apply nodup_put_all, nodup_put_all; constructor).
  assert (P : Permutation (keys x) (keys y)).
  { apply NoDup_Permutation; auto. intros k. destruct (in_dec (list_eq_dec ascii_dec) k (keys x)) as [I|I], (in_dec (list_eq_dec ascii_dec) k (keys y)) as [J|J]; try tauto.
    - apply get_none in J. rewrite <- E in J. apply get_none in J. tauto.
    - apply get_none in I. rewrite E in I. apply get_none in I. tauto. }
  rewrite (sort_perm_eq _ _ P). apply resolve_keys_ext; auto.
  apply Permutation_length in P. unfold keys in P. now rewrite !map_length in P.
Qed.
Print Assumptions C41_compose_order.

(** The canonical map itself does not depend on the order either, when every file the
    overlay names in several ways is also named by its canonical path. *)
Theorem C41_aliases_partial :
  forall (res sym : file -> file) (m m' : fmap), NoDup (keys m) -> Permutation m m' ->
  (forall k k', In k (keys m) -> In k' (keys m) -> k <> k' -> sym (res k) = sym (res k') ->
     In (sym (res k)) (keys m) /\ sym (res (sym (res k))) = sym (res k)) ->
  forall c, get (canonical_replace (parse res sym m)) c = get (canonical_replace (parse res sym m')) c.
Proof.
  intros res sym m m' N P H c.
  assert (N' : NoDup (keys m')) by (eapply Permutation_NoDup; [apply Permutation_map; exact P|exact N]).
  destruct (alias_spec res sym m N c) as (A1 & B1 & C1), (alias_spec res sym m' N' c) as (A2 & B2 & C2).
  destruct (get (canonical_replace (parse res sym m)) c) as [t|] eqn:G1, (get (canonical_replace (parse res sym m')) c) as [t'|] eqn:G2; auto.
  - destruct (B1 t eq_refl) as (k & v & I & E & Ev), (B2 t' eq_refl) as (k' & v' & I' & E' & Ev').
    assert (J' : In (k', v') m) by (eapply Permutation_in; [symmetry; exact P|exact I']).
    destruct (list_eq_dec ascii_dec k k') as [<-|Nk].
    + apply (in_get m k v N) in I. apply (in_get m k v' N) in J'. congruence.
    + destruct (H k k') as [Hc Hcc]; auto; [now apply (in_map fst) in I|now apply (in_map fst) in J'|congruence|].
      rewrite E in Hc, Hcc. apply in_map_iff in Hc as ([c' w] & Ec & Ic). simpl in Ec. subst c'.
      pose proof (C1 w Ic Hcc) as G1'. assert (Ic' : In (c, w) m') by (eapply Permutation_in; eauto). pose proof (C2 w Ic' Hcc) as G2'. congruence.
  - exfalso. destruct (B1 t eq_refl) as (k & v & I & E & _). destruct A2 as [A2 _]. apply (A2 eq_refl k v); auto. eapply Permutation_in; eauto.
  - exfalso. destruct (B2 t' eq_refl) as (k & v & I & E & _). destruct A1 as [A1 _]. apply (A1 eq_refl k v); auto. eapply Permutation_in; [symmetry; exact P|auto].
Qed.
Print Assumptions C41_aliases_partial.

(** Without that condition it does: two symbolic links to one file. *)
Theorem C41_alias_order_refuted :
  exists (sym : file -> file) (m m' : fmap), (forall x, sym (sym x) = sym x) /\ NoDup (keys m) /\ Permutation m m' /\
  exists c, get (canonical_replace (parse (fun f => f) sym m)) c <> get (canonical_replace (parse (fun f => f) sym m')) c.
Proof.
  exists (fun f => match f with c :: d :: nil => [c] | _ => f end), [(#"a1", #"x"); (#"a2", #"y")], [(#"a2", #"y"); (#"a1", #"x")].
  split; [intros [|a [|b [|c x]]]; reflexivity|]. split; [repeat constructor; simpl; intuition discriminate|]. split; [apply perm_swap|].
  exists #"a". vm_compute. discriminate.
Qed.
Print Assumptions C41_alias_order_refuted.

(** ** C42: reading through the in-memory overlay *)
Inductive ov_op := OvFile (f t : file) | OvContent (f : file) (c : bytes).
Definition op_file (o : ov_op) := match o with OvFile f _ | OvContent f _ => f end.
Definition run_ov (key : file -> file) (ops : list ov_op) : ovl :=
  fold_left (fun o op => match op with OvFile f t => override_file key o f t | OvContent f c => override_content key o f c end) ops [].
(** The last override of the file, under any of its names. *)
Inductive last_override (key : file -> file) (f : file) : list ov_op -> option ov_op -> Prop :=
| LO_none ops : (forall op, In op ops -> key (op_file op) <> key f) -> last_override key f ops None
| LO_some before op after : key (op_file op) = key f -> (forall op', In op' after -> key (op_file op') <> key f) ->
    last_override key f (before ++ op :: after) (Some op).
Definition fo_of key (op : ov_op) : foverlay := match op with OvFile _ t => FO (key t) [] false | OvContent _ c => FO [] c true end.
Lemma run_ov_get key f ops o : last_override key f ops o -> get (run_ov key ops) (key f) = option_map (fo_of key) o.
Proof.
  assert (K : forall after m, (forall op', In op' after -> key (op_file op') <> key f) ->
    get (fold_left (fun o op => match op with OvFile f t => override_file key o f t | OvContent f c => override_content key o f c end) after m) (key f) = get m (key f)).
  { induction after as [|op after IH]; simpl; auto. intros m H. rewrite IH by auto. specialize (H op (or_introl eq_refl)).
    destruct op as [g t|g c]; simpl in H; unfold override_file, override_content; now apply get_put_other. }
  intros [ops' H|before op after E H].
  - unfold run_ov. rewrite K by auto. reflexivity.
  - unfold run_ov. rewrite fold_left_app. simpl. rewrite K by auto.
    destruct op as [g t|g c]; simpl in *; unfold override_file, override_content; rewrite E; apply get_put_same.
Qed.
(** For every history of overrides: a read yields the content last given for the file
    under any of its names, or what the redirection last given points to, or the file. *)
Theorem C42_read_last_override :
  forall key disk ops f, (forall t, key t <> []) ->
  let o := run_ov key ops in
  let expected lo := match lo with
    | None => option_map (fun c => (false, c)) (disk f)
    | Some (OvFile _ t) => option_map (fun c => (false, c)) (disk (key t))
    | Some (OvContent _ c) => Some (true, c)
    end in
  (exists lo, last_override key f ops lo) /\
  (forall lo, last_override key f ops lo ->
     read key disk o f = expected lo /\ size key disk o f = option_map (fun x => length (snd x)) (expected lo)).
Proof.
  intros key disk ops f K o expected. split.
  - induction ops as [|op ops IH] using rev_ind.
    + exists None. constructor. intros op [].
    + destruct (list_eq_dec ascii_dec (key (op_file op)) (key f)) as [E|E].
      * exists (Some op). apply (LO_some key f ops op []); auto.
      * destruct IH as [lo IH]. exists lo. destruct IH as [ops H|before op0 after E0 H].
        -- constructor. intros op' I. apply in_app_or in I as [I|[<-|[]]]; auto.
        -- rewrite <- app_assoc. simpl. constructor; auto. intros op' I. apply in_app_or in I as [I|[<-|[]]]; auto.
  - intros lo H. unfold read, size, o. rewrite (run_ov_get key f ops lo H). destruct lo as [[g t|g c]|]; simpl.
    + specialize (K t). destruct (key t) as [|a b]; [congruence|]. destruct (disk (a :: b)); auto.
    + auto.
    + destruct (disk f); auto.
Qed.
Print Assumptions C42_read_last_override.
Example C42_example :
  let key := ex_sym in
  let ops := [OvFile #"/l/a.go" #"/p/b.go"; OvContent #"/p/a.go" #"new"; OvFile #"/p/c.go" #"/p/d.go"] in
  read key (fun f => Some f) (run_ov key ops) #"/l/a.go" = Some (true, #"new") /\
  read key (fun f => Some f) (run_ov key ops) #"/p/c.go" = Some (false, #"/p/d.go") /\
  last_override key #"/l/a.go" ops (Some (OvContent #"/p/a.go" #"new")).
Proof.
  split; [reflexivity|]. split; [reflexivity|]. apply (LO_some ex_sym #"/l/a.go" [OvFile #"/l/a.go" #"/p/b.go"] _ [OvFile #"/p/c.go" #"/p/d.go"]); [reflexivity|].
  intros op [<-|[]]. discriminate.
Qed.

(** ** C43: generated files *)
(** What is written for each file. *)
Lemma make_spec root maps header o : NoDup (keys o) ->
  (forall f fo f' fo', In (f, fo) o -> In (f', fo') o -> fo_has fo = true -> fo_has fo' = true ->
     rebase root (path_mapping f maps) = rebase root (path_mapping f' maps) -> f = f') ->
  let '(replace, writes) := make_go_overlay root maps header o in
  (forall f, get replace f = match get o f with
     | None => None
     | Some fo => if fo_has fo then Some (rebase root (path_mapping f maps)) else match fo_file fo with [] => None | t => Some t end
     end) /\
  (forall f fo, In (f, fo) o -> fo_has fo = true -> get writes (rebase root (path_mapping f maps)) = Some (header f ++ fo_content fo)).
Proof.
  unfold make_go_overlay. induction o as [|[f fo] o IH] using rev_ind; intros N Inj; [split; [reflexivity|intros f fo []]|].
  unfold keys in N. rewrite map_app in N. simpl in N.
  assert (N' : NoDup (keys o)) by (apply NoDup_remove_1 in N; now rewrite app_nil_r in N).
  assert (Nf : ~ In f (keys o)) by (apply NoDup_remove_2 in N; now rewrite app_nil_r in N).
  assert (Inj' : forall f fo f' fo', In (f, fo) o -> In (f', fo') o -> fo_has fo = true -> fo_has fo' = true ->
     rebase root (path_mapping f maps) = rebase root (path_mapping f' maps) -> f = f').
  { intros g go g' go' I I'. apply Inj; apply in_or_app; auto. }
  specialize (IH N' Inj'). rewrite fold_left_app. simpl. destruct (fold_left (make_step root maps header) o ([], [])) as [replace writes]. destruct IH as [R W].
  assert (Go : forall g, get (o ++ [(f, fo)]) g = match get o g with Some x => Some x | None => if eqs f g then Some fo else None end).
  { intros g. clear. induction o as [|[a b] o IH]; simpl; auto. destruct (eqs a g); auto. }
  assert (Of : get o f = None) by now apply get_none.
  unfold make_step. destruct (fo_has fo) eqn:H.
  - split.
    + intros g. rewrite Go, get_put, R. destruct (eqs f g) eqn:E; [apply eqs_eq in E; subst; rewrite Of; now rewrite H|]. now destruct (get o g).
    + intros g go I Hg. rewrite get_put. apply in_app_or in I as [I|[I|[]]].
      * destruct (eqs _ _) eqn:E; [|now apply W]. exfalso. apply eqs_eq in E.
        assert (f = g) by (apply (Inj f fo g go); auto; apply in_or_app; simpl; auto). subst. apply Nf. now apply (in_map fst) in I.
      * injection I as <- <-. now rewrite eqs_refl.
  - assert (Wg : forall g go, In (g, go) (o ++ [(f, fo)]) -> fo_has go = true -> get writes (rebase root (path_mapping g maps)) = Some (header g ++ fo_content go)).
    { intros g go I Hg. apply in_app_or in I as [I|[I|[]]]; [now apply W|]. injection I as <- <-. congruence. }
    destruct (fo_file fo) as [|a b] eqn:F; (split; [|exact Wg]); intros g; rewrite Go; [|rewrite get_put]; rewrite R;
      destruct (eqs f g) eqn:E; try (now destruct (get o g)); apply eqs_eq in E; subst; rewrite Of, H, F; reflexivity.
Qed.
(** Where a file goes: [None] for the original place under the overlay directory. *)
Lemma mapping_spec maps : forall path,
  (path_mapping path maps = path /\ forall from to, In (from, to) maps -> forall r, path = from ++ r -> r <> [] /\ forall c r', r = c :: r' -> c <> "/"%char) \/
  (exists from to r, In (from, to) maps /\ path = from ++ r /\ path_mapping path maps = to ++ r /\ (r = [] \/ exists r', r = "/"%char :: r')).
Proof.
  induction maps as [|[from to] maps IH]; intros path; cbn [path_mapping]; [left; split; auto; intros ? ? []|].
  destruct (has_prefix path from) eqn:P; cbn [negb].
  - apply has_prefix_sound in P as [r ->].
    assert (Sk : skipn (length from) (from ++ r) = r) by (rewrite skipn_app, skipn_all, Nat.sub_diag; reflexivity).
    rewrite Sk. destruct r as [|c r].
    + right. exists from, to, []. simpl. split; [auto|]. rewrite !app_nil_r. auto.
    + destruct (eqc c "/"%char) eqn:E.
      * apply eqc_eq in E. subst. right. exists from, to, ("/"%char :: r). simpl. eauto 10.
      * apply eqc_neq in E. destruct (IH (from ++ c :: r)) as [[Q H]|(f' & t' & r' & I & Q1 & Q2 & Q3)].
        -- left. split; auto. intros f t [Ef|I]; [|exact (H f t I)]. injection Ef as -> ->. intros r' Er. apply app_inv_head in Er. subst r'.
           split; [discriminate|]. intros c' r' Ec. injection Ec as -> ->. auto.
        -- right. exists f', t', r'. simpl. auto.
  - destruct (IH path) as [[Q H]|(f' & t' & r' & I & Q1 & Q2 & Q3)].
    + left. split; auto. intros f t [Ef|I]; [|exact (H f t I)]. injection Ef as -> ->. intros r' Er. subst path. now rewrite has_prefix_app in P.
    + right. exists f', t', r'. simpl. auto.
Qed.
Lemma cut_slash a b r s : ~ In "/"%char a -> ~ In "/"%char b ->
  (r = [] \/ exists r', r = "/"%char :: r') -> (s = [] \/ exists s', s = "/"%char :: s') -> a ++ r = b ++ s -> a = b /\ r = s.
Proof.
  revert b. induction a as [|x a IH]; intros b Na Nb Hr Hs E.
  - destruct b as [|y b]; [auto|]. exfalso. simpl in E. destruct Hr as [->|[r' ->]]; [discriminate|]. injection E as E1 E2. apply Nb. left. congruence.
  - destruct b as [|y b].
    + exfalso. simpl in E. destruct Hs as [->|[s' ->]]; [discriminate|]. injection E as E1 E2. apply Na. left. congruence.
    + simpl in E. injection E as -> E. destruct (IH b) as [-> ->]; auto; simpl in *; tauto.
Qed.

(** The mapping used by the build: each place has its own name, without slashes. *)
Definition good_mappings (maps : list (bytes * bytes)) : Prop :=
  NoDup (map snd maps) /\ forall from to, In (from, to) maps -> to <> [] /\ ~ In "/"%char to.
(** A file that lives directly below a root directory called like one of those places. *)
Definition clashes (maps : list (bytes * bytes)) (f : file) : Prop :=
  exists from to r, In (from, to) maps /\ f = "/"%char :: to ++ r /\ (r = [] \/ exists r', r = "/"%char :: r').
Lemma nodup_snd maps (from from' to : bytes) : NoDup (map snd maps) -> In (from, to) maps -> In (from', to) maps -> from = from'.
Proof.
  induction maps as [|[a b] maps IH]; simpl; [tauto|]. intros N [E|I] [E'|I']; inversion N; subst; auto.
  - congruence.
  - exfalso. injection E as -> ->. apply H1. now apply (in_map snd) in I'.
  - exfalso. injection E' as -> ->. apply H1. now apply (in_map snd) in I.
Qed.
Lemma rebase_inj root maps f f' : good_mappings maps -> ~ clashes maps f -> ~ clashes maps f' ->
  (exists r, f = "/"%char :: r) -> (exists r, f' = "/"%char :: r) ->
  rebase root (path_mapping f maps) = rebase root (path_mapping f' maps) -> f = f'.
Proof.
  intros [Nd G] Cf Cf' [rf Ef] [rf' Ef'] E. unfold rebase in E. apply app_inv_head in E.
  assert (K : forall p to r, ~ In "/"%char to -> to <> [] -> p = to ++ r -> match p with [] => [] | c :: _ => if eqc c "/"%char then p else "/"%char :: p end = "/"%char :: to ++ r).
  { intros p to r N Ne ->. destruct to as [|c to]; [congruence|]. simpl. replace (eqc c "/"%char) with false; auto. symmetry. apply eqc_neq. intros ->. apply N. now left. }
  assert (U : forall p r, p = "/"%char :: r -> match p with [] => [] | c :: _ => if eqc c "/"%char then p else "/"%char :: p end = p).
  { intros p r ->. now rewrite eqc_refl. }
  destruct (mapping_spec maps f) as [[Q _]|(fr & to & r & I & Q1 & Q2 & Q3)], (mapping_spec maps f') as [[Q' _]|(fr' & to' & r' & I' & Q1' & Q2' & Q3')].
  - rewrite Q, Q' in E. rewrite (U f rf Ef), (U f' rf' Ef') in E. exact E.
  - exfalso. destruct (G _ _ I') as [Ne Ns]. rewrite Q in E. rewrite (U f rf Ef), (K _ to' r' Ns Ne Q2') in E. apply Cf. exists fr', to', r'. auto.
  - exfalso. destruct (G _ _ I) as [Ne Ns]. rewrite Q' in E. rewrite (U f' rf' Ef'), (K _ to r Ns Ne Q2) in E. apply Cf'. exists fr, to, r. auto.
  - destruct (G _ _ I) as [Ne Ns], (G _ _ I') as [Ne' Ns']. rewrite (K _ to r Ns Ne Q2), (K _ to' r' Ns' Ne' Q2') in E.
    injection E as E. destruct (cut_slash to to' r r' Ns Ns' Q3 Q3' E) as [-> ->]. rewrite Q1, Q1'. f_equal. eapply nodup_snd; eauto.
Qed.
(** Every instrumented file is replaced by a file that holds its own instrumented
    source, for every set of files and every iteration order, when no file lives below
    a root directory that is called like one of the mapped places. *)
Theorem C43_own_file_partial :
  forall root maps header (o : ovl), NoDup (keys o) -> good_mappings maps ->
  (forall f, In f (keys o) -> ~ clashes maps f /\ exists r, f = "/"%char :: r) ->
  let '(replace, writes) := make_go_overlay root maps header o in
  (forall f fo, In (f, fo) o -> fo_has fo = true -> exists w, get replace f = Some w /\ get writes w = Some (header f ++ fo_content fo)) /\
  (forall f fo, In (f, fo) o -> fo_has fo = false -> fo_file fo <> [] -> get replace f = Some (fo_file fo)) /\
  (forall f, ~ In f (keys o) -> get replace f = None).
Proof.
  intros root maps header o N G H.
  pose proof (make_spec root maps header o N) as M.
  destruct (make_go_overlay root maps header o) as [replace writes].
  destruct M as [R W].
  { intros f fo f' fo' I I' _ _ E. apply (in_map fst) in I, I'. destruct (H f I) as [C S], (H f' I') as [C' S']. now apply (rebase_inj root maps f f'). }
  split; [|split].
  - intros f fo I Hf. exists (rebase root (path_mapping f maps)). split; [|now apply W]. rewrite R, (in_get o f fo N I), Hf. reflexivity.
  - intros f fo I Hf Nf. rewrite R, (in_get o f fo N I), Hf. destruct (fo_file fo); [congruence|reflexivity].
  - intros f I. rewrite R. apply get_none in I. now rewrite I.
Qed.
Print Assumptions C43_own_file_partial.
Definition ex_maps : list (bytes * bytes) := [(#"/usr/go", #"GOROOT"); (#"/home/me/app", #"PROJECT"); (#"/home/me/go", #"GOPATH")].
Example C43_example :
  good_mappings ex_maps /\
  make_go_overlay #"/ov" ex_maps (fun f => #"//line ")
    [(#"/home/me/app/a.go", FO [] #"A" true); (#"/home/me/application/a.go", FO [] #"B" true); (#"/x.go", FO #"/y.go" [] false)] =
  ([(#"/home/me/app/a.go", #"/ov/PROJECT/a.go"); (#"/home/me/application/a.go", #"/ov/home/me/application/a.go"); (#"/x.go", #"/y.go")],
   [(#"/ov/PROJECT/a.go", #"//line A"); (#"/ov/home/me/application/a.go", #"//line B")]).
Proof.
  split; [|reflexivity]. split; [repeat constructor; simpl; intuition discriminate|].
  intros from to [E|[E|[E|[]]]]; injection E as <- <-; (split; [discriminate|]); simpl; intuition discriminate.
Qed.
(** Otherwise two files may be written to the same place: a dependency in /PROJECT and
    the project itself. *)
Theorem C43_clash_refuted :
  exists (o : ovl), NoDup (keys o) /\ good_mappings ex_maps /\
  exists f fo w, In (f, fo) o /\ fo_has fo = true /\
    get (fst (make_go_overlay #"/ov" ex_maps (fun _ => []) o)) f = Some w /\
    get (snd (make_go_overlay #"/ov" ex_maps (fun _ => []) o)) w <> Some (fo_content fo).
Proof.
  exists [(#"/home/me/app/a.go", FO [] #"package app" true); (#"/PROJECT/a.go", FO [] #"package dep" true)].
  split; [repeat constructor; simpl; intuition discriminate|]. split; [apply C43_example|].
  exists #"/home/me/app/a.go", (FO [] #"package app" true), #"/ov/PROJECT/a.go". split; [left; auto|]. split; auto. split; [reflexivity|]. vm_compute. discriminate.
Qed.
Print Assumptions C43_clash_refuted.
