(** * C68: which entries of a directory are copied *)
From Coq Require Import Ascii String List Arith Bool Lia.
From Verif Require Import M_Str M_CopyTree.
Import ListNotations.
Open Scope nat_scope.
Open Scope list_scope.

(** ** Specification *)
(** p leads from a directory with these entries to n. *)
Inductive leads : list (bytes * node) -> list bytes -> node -> Prop :=
| leads_here es x n : In (x, n) es -> leads es [x] n
| leads_below es x es' p n : In (x, NDir es') es -> leads es' p n -> leads es (x :: p) n.
Definition ends_with (s suffix : bytes) : Prop := suffix <> [] /\ exists a, s = a ++ suffix.
(** The path and all directories on the way to it are not on the ignore list. *)
Definition not_ignored (o : copts) (p : list bytes) : Prop :=
  forall a b, p = a ++ b -> a <> [] -> join #"/" a <> [] -> ~ In (join #"/" a) (ignore_sub o).
Definition suffix_ok (o : copts) (p : list bytes) : Prop :=
  (include_suffix o = [] \/ exists x, In x (include_suffix o) /\ ends_with (join #"/" p) x) /\
  ~ exists x, In x (ignore_suffix o) /\ ends_with (join #"/" p) x.
(** What has to be done for an entry. *)
Definition wanted (o : copts) (p : list bytes) (n : node) (a : act) : Prop :=
  not_ignored o p /\
  match n with
  | NDir _ => a = Mk p
  | NLink t => a = Link p t /\ suffix_ok o p
  | NFile => a = Cp p /\ suffix_ok o p
  | NOther => False
  end.
Definition where_ (a : act) : list bytes := match a with Mk p | Link p _ | Cp p => p end.
(** No directory has two entries of one name. *)
Inductive distinct : list (bytes * node) -> Prop :=
| distinct_dir es : NoDup (map fst es) -> (forall x es', In (x, NDir es') es -> distinct es') -> distinct es.

(** ** Proofs *)
Section NodeInd.
Context (P : node -> Prop) (Hf : P NFile) (Hl : forall t, P (NLink t)) (Ho : P NOther) (Hd : forall es, Forall (fun e => P (snd e)) es -> P (NDir es)).
Fixpoint node_ind' (n : node) : P n :=
  match n with
  | NFile => Hf | NLink t => Hl t | NOther => Ho
  | NDir es => Hd es ((fix go (es : list (bytes * node)) : Forall (fun e => P (snd e)) es := match es with [] => Forall_nil _ | e :: r => Forall_cons _ (node_ind' (snd e)) (go r) end) es)
  end.
End NodeInd.
Lemma empty_iff s : empty s = false <-> s <> []. Proof. destruct s; cbn; split; congruence. Qed.
Lemma ends_with_b s x : negb (empty x) && has_suffix s x = true <-> ends_with s x.
Proof. rewrite andb_true_iff, negb_true_iff, empty_iff, has_suffix_iff. reflexivity. Qed.
Lemma ignored_b o s : existsb (fun i => negb (empty i) && eqs i s) (ignore_sub o) = true <-> s <> [] /\ In s (ignore_sub o).
Proof.
  rewrite existsb_exists. split.
  - intros (i & I & E). apply andb_prop in E as [E1 E2]. apply eqs_eq in E2. subst i. apply negb_true_iff, empty_iff in E1. auto.
  - intros [N I]. exists s. split; auto. rewrite eqs_refl, andb_true_r. now apply negb_true_iff, empty_iff.
Qed.
Lemma suffix_b l s : existsb (fun x => negb (empty x) && has_suffix s x) l = true <-> exists x, In x l /\ ends_with s x.
Proof. rewrite existsb_exists. split; intros (x & I & E); exists x; split; auto; now apply ends_with_b. Qed.
Lemma passes_dir o p : passes o p true = true <-> (join #"/" p <> [] -> ~ In (join #"/" p) (ignore_sub o)).
Proof.
  unfold passes, sub_path. destruct (existsb _ (ignore_sub o)) eqn:E.
  - apply ignored_b in E as [N I]. split; [discriminate|]. intros H. exfalso. now apply H.
  - split; auto. intros _ N I. assert (X := proj2 (ignored_b o _) (conj N I)). congruence.
Qed.
Lemma passes_file o p : passes o p false = true <-> (join #"/" p <> [] -> ~ In (join #"/" p) (ignore_sub o)) /\ suffix_ok o p.
Proof.
  rewrite <- passes_dir. unfold passes, sub_path, suffix_ok. destruct (existsb _ (ignore_sub o)); [split; [discriminate|intros [X _]; discriminate X]|].
  set (s := join #"/" p).
  destruct (existsb (fun x => negb (empty x) && has_suffix s x) (include_suffix o)) eqn:I; destruct (existsb (fun x => negb (empty x) && has_suffix s x) (ignore_suffix o)) eqn:G.
  - apply suffix_b in G. rewrite andb_false_r. split; [discriminate|]. intros (_ & _ & X). contradiction.
  - apply suffix_b in I. rewrite andb_false_r. split; auto. intros _. split; auto. split; auto. intros X. apply suffix_b in X. congruence.
  - apply suffix_b in G. rewrite andb_true_r. destruct (include_suffix o); (split; [discriminate|]); intros (_ & _ & X); contradiction.
  - rewrite andb_true_r. destruct (include_suffix o) eqn:L.
    + split; auto. intros _. split; auto. split; auto. intros X. apply suffix_b in X. congruence.
    + split; [discriminate|]. intros (_ & [X|X] & _); [discriminate X|]. apply suffix_b in X. rewrite <- L in I. congruence.
Qed.
Lemma visit_dir o p es : visit o p (NDir es) = if negb (passes o p true) then [] else Mk p :: visits o p es.
Proof.
  cbn [visit]. destruct (negb (passes o p true)); auto. f_equal. unfold visits. induction es as [|[x m] es IH]; auto. cbn [flat_map fst snd]. now rewrite <- IH.
Qed.
(** Ancestors strictly below a base. *)
Definition clear_from (o : copts) (base p : list bytes) : Prop :=
  forall a b, p = a ++ b -> length base < length a -> join #"/" a <> [] -> ~ In (join #"/" a) (ignore_sub o).
Lemma app_length_prefix {A} (a b c d : list A) : a ++ b = c ++ d -> length a = length c -> a = c.
Proof. revert c. induction a as [|x a IH]; intros [|y c] E L; try discriminate; auto. injection E as -> E. f_equal. apply (IH c); auto. Qed.
Lemma clear_step o base x p : clear_from o base (base ++ x :: p) <->
  (join #"/" (base ++ [x]) <> [] -> ~ In (join #"/" (base ++ [x])) (ignore_sub o)) /\ clear_from o (base ++ [x]) ((base ++ [x]) ++ p).
Proof.
  rewrite <- app_assoc. cbn [app]. split.
  - intros H. split; [apply (H (base ++ [x]) p)|]; [now rewrite <- app_assoc|rewrite app_length; cbn; lia|].
    intros a b E L. apply (H a b E). rewrite app_length in L. lia.
  - intros [H1 H2] a b E L. destruct (Nat.eq_dec (length a) (length (base ++ [x]))) as [Q|Q].
    + assert (a = base ++ [x]) as -> by (apply (app_length_prefix a b (base ++ [x]) p); auto; rewrite <- E, <- app_assoc; reflexivity). auto.
    + apply (H2 a b E). rewrite app_length in *. cbn in *. lia.
Qed.
Definition content_ok (o : copts) (p : list bytes) (n : node) (a : act) : Prop :=
  match n with
  | NDir _ => a = Mk p
  | NLink t => a = Link p t /\ suffix_ok o p
  | NFile => a = Cp p /\ suffix_ok o p
  | NOther => False
  end.
Lemma visit_spec o n : forall base x a,
  In a (visit o (base ++ [x]) n) <->
  exists p m, (p = [] /\ m = n \/ exists es, n = NDir es /\ leads es p m) /\ clear_from o base (base ++ x :: p) /\ content_ok o (base ++ x :: p) m a.
Proof.
  assert (Top : forall base x a n, (forall es, n <> NDir es) -> (In a (visit o (base ++ [x]) n) <-> (join #"/" (base ++ [x]) <> [] -> ~ In (join #"/" (base ++ [x])) (ignore_sub o)) /\ content_ok o (base ++ [x]) n a) ->
    (In a (visit o (base ++ [x]) n) <-> exists p m, (p = [] /\ m = n \/ exists es, n = NDir es /\ leads es p m) /\ clear_from o base (base ++ x :: p) /\ content_ok o (base ++ x :: p) m a)).
  { intros base x a m N H. rewrite H. split.
    - intros [A B]. exists [], m. split; auto. split; auto. apply clear_step. split; auto. intros u v E L. exfalso. rewrite app_nil_r in E. apply (f_equal (@length _)) in E. rewrite !app_length in *. lia.
    - intros (p & m' & [[-> ->]|(es & E & _)] & A & B); [|exfalso; now apply (N es)]. apply clear_step in A as [A _]. auto. }
  induction n as [|t| |es IH] using node_ind'; intros base x a.
  - apply Top; [discriminate|]. cbn [visit content_ok]. split.
    + destruct (passes o (base ++ [x]) false) eqn:E; [|intros []]. apply passes_file in E as [E1 E2]. intros [<-|[]]. auto.
    + intros (A & -> & B). rewrite (proj2 (passes_file o (base ++ [x]))) by auto. now left.
  - apply Top; [discriminate|]. cbn [visit content_ok]. split.
    + destruct (passes o (base ++ [x]) false) eqn:E; [|intros []]. apply passes_file in E as [E1 E2]. intros [<-|[]]. auto.
    + intros (A & -> & B). rewrite (proj2 (passes_file o (base ++ [x]))) by auto. now left.
  - apply Top; [discriminate|]. cbn [visit content_ok]. split; [|intros (_ & [])]. destruct (negb _); intros [].
  - rewrite visit_dir. destruct (passes o (base ++ [x]) true) eqn:E; cbn [negb].
    + assert (E' := proj1 (passes_dir o (base ++ [x])) E). rewrite Forall_forall in IH. split.
      * intros [<-|I].
        -- exists [], (NDir es). split; auto. split; [|reflexivity]. apply clear_step. split; auto. intros u v Q L. exfalso. rewrite app_nil_r in Q. apply (f_equal (@length _)) in Q. rewrite !app_length in *. lia.
        -- apply in_flat_map in I as ([y m] & Im & Ia). cbn [fst snd] in Ia. assert (IHm := IH (y, m) Im). cbn [snd] in IHm. apply IHm in Ia as (p & m' & Hm & C & K).
           exists (y :: p), m'. rewrite <- app_assoc in C, K. cbn [app] in C, K. split.
           ++ right. exists es. split; auto. destruct Hm as [[-> ->]|(es' & -> & L)]; [now constructor|econstructor; eauto].
           ++ split; auto. apply clear_step. split; auto. rewrite <- app_assoc. exact C.
      * intros (p & m' & Hm & C & K). destruct Hm as [[-> ->]|(es' & Q & L)]; [left; cbn in K; now subst|]. injection Q as <-. right.
        apply clear_step in C as [_ C]. inversion L as [? y ? I|? y es' q ? I L']; subst; clear L; apply in_flat_map.
        -- exists (y, m'). split; auto. cbn [fst snd]. assert (IHm := IH (y, m') I). cbn [snd] in IHm. apply IHm. exists [], m'. split; auto. rewrite <- !app_assoc in *. auto.
        -- exists (y, NDir es'). split; auto. cbn [fst snd]. assert (IHm := IH (y, NDir es') I). cbn [snd] in IHm. apply IHm. exists q, m'. split; [right; eauto|]. rewrite <- !app_assoc in *. auto.
    + split; [intros []|]. intros (p & m & _ & C & _). exfalso. apply clear_step in C as [C _]. apply passes_dir in C. congruence.
Qed.
Lemma clear_nil o p : clear_from o [] p <-> not_ignored o p.
Proof. unfold clear_from, not_ignored. split; intros H a b E; intros; apply (H a b E); auto; destruct a; cbn in *; try lia; congruence. Qed.
(** An entry is copied, linked or made as a directory if and only if it is to be. *)
Theorem C68_copied :
  forall o es a, where_ a <> [] -> (In a (copy_tree o es) <-> exists p n, leads es p n /\ wanted o p n a).
Proof.
  intros o es a W. unfold copy_tree. split.
  - intros [<-|I]; [now elim W|]. apply in_flat_map in I as ([x m] & Im & Ia). apply (visit_spec o m [] x a) in Ia as (p & n & Hn & C & K).
    exists (x :: p), n. split; [destruct Hn as [[-> ->]|(es' & -> & L)]; [now constructor|econstructor; eauto]|]. split; [now apply clear_nil|exact K].
  - intros (p & n & L & N & K). right. apply in_flat_map. inversion L as [? x ? I|? x es' q ? I L']; subst.
    + exists (x, n). split; auto. apply (visit_spec o n [] x a). exists [], n. split; auto. split; [now apply clear_nil|exact K].
    + exists (x, NDir es'). split; auto. apply (visit_spec o (NDir es') [] x a). exists q, n. split; [right; eauto|]. split; [now apply clear_nil|exact K].
Qed.
Print Assumptions C68_copied.
(** The root is made first, and the directory of an entry before the entry. *)
Lemma visit_under o n : forall p a, In a (visit o p n) -> exists q, where_ a = p ++ q.
Proof.
  induction n as [|t| |es IH] using node_ind'; intros p a.
  1-3: cbn [visit]; destruct (negb _); [intros []|]; try (intros []; fail); intros [<-|[]]; exists []; cbn; now rewrite app_nil_r.
  rewrite visit_dir. destruct (negb _); [intros []|]. intros [<-|I]; [exists []; cbn; now rewrite app_nil_r|].
  apply in_flat_map in I as ([x m] & Im & Ia). rewrite Forall_forall in IH. destruct (IH _ Im _ _ Ia) as [q E]. exists (x :: q). rewrite E. cbn [fst]. now rewrite <- app_assoc.
Qed.
Lemma visit_order o n : forall p l1 a l2, visit o p n = l1 ++ a :: l2 -> where_ a <> p -> exists q x, where_ a = q ++ [x] /\ In (Mk q) l1.
Proof.
  induction n as [|t| |es IH] using node_ind'; intros p l1 a l2.
  1-3: cbn [visit]; destruct (negb _); [destruct l1; discriminate|]; destruct l1 as [|? [|]]; try discriminate; intros E N; injection E as E; subst; exfalso; now apply N.
  rewrite visit_dir. destruct (negb _); [destruct l1; discriminate|]. intros E N.
  destruct l1 as [|b l1]; [injection E as <- _; exfalso; now apply N|]. injection E as <- E.
  assert (G : forall es l1, Forall (fun e => forall p l1 a l2, visit o p (snd e) = l1 ++ a :: l2 -> where_ a <> p -> exists q x, where_ a = q ++ [x] /\ In (Mk q) l1) es ->
     visits o p es = l1 ++ a :: l2 -> exists q x, where_ a = q ++ [x] /\ (q = p \/ In (Mk q) l1)).
  { clear. induction es as [|[x m] es IHe]; intros l1 F E; [destruct l1; discriminate|]. inversion F as [|? ? F1 F2]; subst. cbn [snd] in F1.
    cbn [visits flat_map fst snd] in E.
    assert (D : (exists t, visit o (p ++ [x]) m = l1 ++ a :: t) \/ (exists l1', l1 = visit o (p ++ [x]) m ++ l1' /\ visits o p es = l1' ++ a :: l2)).
    { revert l1 E. generalize (visit o (p ++ [x]) m). intros v. unfold visits. generalize (flat_map (fun e => visit o (p ++ [fst e]) (snd e)) es). intros u.
      induction v as [|y v IHv]; intros l1 E; [right; exists l1; auto|]. destruct l1 as [|z l1]; cbn in E; injection E as -> E; [left; eexists; reflexivity|].
      destruct (IHv l1 E) as [[t ->]|(l1' & -> & Q)]; [left; eexists; reflexivity|right; exists l1'; auto]. }
    destruct D as [[t D]|(l1' & -> & D)].
    - destruct (list_eq_dec (list_eq_dec ascii_dec) (where_ a) (p ++ [x])) as [Q|Q]; [exists p, x; auto|].
      destruct (F1 _ _ _ _ D Q) as (q & y & A & B). exists q, y. auto.
    - destruct (IHe l1' F2 D) as (q & y & A & [B|B]); exists q, y; split; auto. right. apply in_or_app. now right. }
  destruct (G es l1 IH E) as (q & x & A & [->|B]); [exists p, x; split; auto; now left|exists q, x; split; auto; now right].
Qed.
Theorem C68_parents :
  forall o es l1 a l2, copy_tree o es = l1 ++ a :: l2 ->
    (l1 = [] -> a = Mk []) /\ (l1 <> [] -> exists q x, where_ a = q ++ [x] /\ In (Mk q) l1).
Proof.
  intros o es l1 a l2 E. split; [intros ->; now injection E|]. intros N.
  destruct l1 as [|b l1]; [congruence|]. injection E as <- E.
  (* the root as the directory of a walk *)
  assert (G : forall es l1, visits o [] es = l1 ++ a :: l2 -> exists q x, where_ a = q ++ [x] /\ (q = [] \/ In (Mk q) l1)).
  { clear. induction es as [|[x m] es IHe]; intros l1 E; [destruct l1; discriminate|]. cbn [visits flat_map fst snd] in E.
    assert (D : (exists t, visit o ([] ++ [x]) m = l1 ++ a :: t) \/ (exists l1', l1 = visit o ([] ++ [x]) m ++ l1' /\ visits o [] es = l1' ++ a :: l2)).
    { revert l1 E. generalize (visit o ([] ++ [x]) m). intros v. unfold visits. generalize (flat_map (fun e => visit o ([] ++ [fst e]) (snd e)) es). intros u.
      induction v as [|y v IHv]; intros l1 E; [right; exists l1; auto|]. destruct l1 as [|z l1]; cbn in E; injection E as -> E; [left; eexists; reflexivity|].
      destruct (IHv l1 E) as [[t ->]|(l1' & -> & Q)]; [left; eexists; reflexivity|right; exists l1'; auto]. }
    destruct D as [[t D]|(l1' & -> & D)].
    - destruct (list_eq_dec (list_eq_dec ascii_dec) (where_ a) ([] ++ [x])) as [Q|Q]; [exists [], x; auto|].
      destruct (visit_order o m _ _ _ _ D Q) as (q & y & A & B). exists q, y. auto.
    - destruct (IHe l1' D) as (q & y & A & [B|B]); exists q, y; split; auto. right. apply in_or_app. now right. }
  destruct (G es l1 E) as (q & x & A & [->|B]); [exists [], x; split; auto; now left|exists q, x; split; auto; now right].
Qed.
Print Assumptions C68_parents.
(** No entry is written twice. *)
Lemma visits_nodup o : forall es p, (forall x n, In (x, n) es -> forall p, NoDup (map where_ (visit o p n))) -> NoDup (map fst es) -> NoDup (map where_ (visits o p es)).
Proof.
  induction es as [|[x n] es IH]; intros p F N; [constructor|]. cbn [visits flat_map fst snd map] in *. inversion N as [|? ? N1 N2]; subst. rewrite map_app.
  assert (H1 := F x n (or_introl eq_refl) (p ++ [x])). assert (H2 := IH p (fun y m I => F y m (or_intror I)) N2).
  assert (Dj : forall w, In w (map where_ (visit o (p ++ [x]) n)) -> ~ In w (map where_ (visits o p es))).
  { intros w A B. apply in_map_iff in A as (a & <- & A). apply in_map_iff in B as (b & E & B). apply in_flat_map in B as ([y m] & Im & Ib). cbn [fst snd] in Ib.
    destruct (visit_under _ _ _ _ A) as [q1 Q1]. destruct (visit_under _ _ _ _ Ib) as [q2 Q2]. rewrite Q1, Q2, <- !app_assoc in E. apply app_inv_head in E. injection E as -> _.
    apply N1. apply (in_map fst) in Im. exact Im. }
  revert H1 Dj. generalize (map where_ (visit o (p ++ [x]) n)). intros l. induction l as [|w l IHl]; intros H1 Dj; auto. inversion H1; subst. cbn. constructor.
  - intros I. apply in_app_or in I as [I|I]; [contradiction|]. apply (Dj w); auto. now left.
  - apply IHl; auto. intros w' I. apply Dj. now right.
Qed.
Lemma visit_nodup o n : (match n with NDir es => distinct es | _ => True end) -> forall p, NoDup (map where_ (visit o p n)).
Proof.
  induction n as [|t| |es IH] using node_ind'; intros D p.
  1-3: cbn [visit]; destruct (negb _); cbn; repeat constructor; auto.
  inversion D as [? N D']; subst. rewrite visit_dir. destruct (negb _); [constructor|]. cbn [map where_]. constructor.
  - intros I. apply in_map_iff in I as (a & E & I). apply in_flat_map in I as ([x m] & _ & I). destruct (visit_under _ _ _ _ I) as [q Q]. cbn [fst] in Q. rewrite E in Q.
    apply (f_equal (@length _)) in Q. rewrite !app_length in Q. cbn in Q. lia.
  - apply visits_nodup; auto. rewrite Forall_forall in IH. intros x m I q. apply (IH (x, m) I). cbn [snd]. destruct m; auto. now apply (D' x).
Qed.
Theorem C68_once : forall o es, distinct es -> NoDup (map where_ (copy_tree o es)).
Proof.
  intros o es D. cbn [copy_tree map where_]. constructor.
  - intros I. apply in_map_iff in I as (a & E & I). apply in_flat_map in I as ([x m] & _ & I). destruct (visit_under _ _ _ _ I) as [q Q]. rewrite E in Q. discriminate Q.
  - inversion D as [? N D']; subst. apply visits_nodup; auto. intros x n I p. apply visit_nodup. destruct n; auto. now apply (D' x).
Qed.
Print Assumptions C68_once.
(** What copying the runtime without .xgo and test does (cmd/xgo/trace.go:234). *)
Example C68_example :
  let es := [(#".xgo", NDir [(#"a", NFile)]); (#"core", NDir [(#"test", NDir [(#"b.go", NFile)]); (#"x.go", NFile)]); (#"sock", NOther); (#"test", NDir [(#"c.go", NFile)])] in
  let o := {| ignore_sub := [#".xgo"; #"test"]; ignore_suffix := []; include_suffix := [#".go"] |} in
  distinct es /\ copy_tree o es = [Mk []; Mk [#"core"]; Mk [#"core"; #"test"]; Cp [#"core"; #"test"; #"b.go"]; Cp [#"core"; #"x.go"]].
Proof.
  assert (F : forall x, distinct [(x, NFile)]).
  { intros x. constructor; [repeat constructor; intros []|]. intros y es' [I|[]]. discriminate I. }
  cbv zeta. split; [|vm_compute; reflexivity].
  constructor; [cbn [map fst]; repeat constructor; vm_compute; intuition discriminate|].
  intros x es' [I|[I|[I|[I|[]]]]]; try discriminate I; apply (f_equal snd) in I; cbn [snd] in I; injection I as <-; auto.
  constructor; [cbn [map fst]; repeat constructor; vm_compute; intuition discriminate|].
  intros y es' [I|[I|[]]]; try discriminate I; apply (f_equal snd) in I; cbn [snd] in I; injection I as <-; auto.
Qed.
