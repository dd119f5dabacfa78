(** * C27: source edits compose.  Model: M_Edit. *)
From Coq Require Import Ascii String List Arith Bool Lia Permutation.
From Verif Require Import M_Str M_Edit.
Import ListNotations.
Open Scope nat_scope.

(** ** Specification *)
(** The edits a sequence of calls asks for, in order (Bytes/String ask for nothing). *)
Definition asks (old : bytes) (o : op) : list edit :=
  match o with
  | OInsert pos new => [Edit pos pos new]
  | ODelete start (Some stop) => [Edit start stop []]
  | ODelete start None => [Edit start (length old) []]
  | OReplace start (Some stop) new => [Edit start stop new]
  | OReplace start None new => [Edit start (length old) new]
  | OBytes => []
  end.
Definition edits_of (old : bytes) (ops : list op) : list edit := flat_map (asks old) ops.
(** A position is valid when the range lies in the text. *)
Definition in_text (old : bytes) (e : edit) : Prop := e_start e <= e_end e <= length old.

(** Two edits overlap unless one ends before (or where) the other starts. *)
Definition disjoint (a b : edit) : Prop := e_end a <= e_start b \/ e_end b <= e_start a.
Definition non_overlapping (q : list edit) : Prop := ForallOrdPairs disjoint q.

(** The text asked for, position by position: at position p first all texts inserted at
    p, in the order they were queued, then the new text of the range that starts at p,
    then the byte at p unless an edited range covers it. *)
Definition inserted (q : list edit) (p : nat) : bytes :=
  flat_map e_new (filter (fun e => (e_start e =? p) && (e_end e =? p)) q).
Definition replaced (q : list edit) (p : nat) : bytes :=
  flat_map e_new (filter (fun e => (e_start e =? p) && (p <? e_end e)) q).
Definition covered (q : list edit) (p : nat) : bool :=
  existsb (fun e => (e_start e <=? p) && (p <? e_end e)) q.
Fixpoint edited (q : list edit) (p : nat) (old : bytes) : bytes :=
  inserted q p ++ replaced q p ++
  match old with
  | [] => []
  | c :: r => (if covered q p then [] else [c]) ++ edited q (S p) r
  end.

(** ** Stable sorting *)
Definition le (a b : edit) : Prop := less b a = false.
Lemma less_spec a b : less a b = true <-> e_start a < e_start b \/ (e_start a = e_start b /\ e_end a < e_end b).
Proof.
  unfold less. destruct (e_start a =? e_start b) eqn:E.
  - apply Nat.eqb_eq in E. rewrite Nat.ltb_lt. lia.
  - apply Nat.eqb_neq in E. rewrite Nat.ltb_lt. lia.
Qed.
Lemma le_spec a b : le a b <-> e_start a < e_start b \/ (e_start a = e_start b /\ e_end a <= e_end b).
Proof.
  unfold le. destruct (less b a) eqn:E.
  - apply less_spec in E. split; [discriminate|lia].
  - split; auto. intros _. destruct (Nat.lt_ge_cases (e_start b) (e_start a)); [|destruct (Nat.eq_dec (e_start a) (e_start b))].
    + assert (less b a = true) by (apply less_spec; lia). congruence.
    + destruct (Nat.lt_ge_cases (e_end b) (e_end a)); [|lia]. assert (less b a = true) by (apply less_spec; lia). congruence.
    + lia.
Qed.
Inductive sorted : list edit -> Prop :=
| sorted_nil : sorted []
| sorted_cons x l : Forall (le x) l -> sorted l -> sorted (x :: l).

Lemma insert_perm x l : Permutation (x :: l) (insert_sorted x l).
Proof.
  induction l as [|y l IH]; simpl; auto. destruct (less y x); auto.
  eapply perm_trans; [apply perm_swap|]. now apply perm_skip.
Qed.
Lemma sort_perm q : Permutation q (sort_stable q).
Proof. induction q as [|x q IH]; simpl; auto. eapply perm_trans; [apply perm_skip, IH|]. apply insert_perm. Qed.
Lemma insert_sorted_ok x l : sorted l -> sorted (insert_sorted x l).
Proof.
  induction 1 as [|y l F S IH]; simpl.
  - repeat constructor.
  - destruct (less y x) eqn:E.
    + constructor; auto. eapply Permutation_Forall; [apply insert_perm|]. constructor; auto.
      apply le_spec. apply less_spec in E. lia.
    + constructor; [|constructor; auto]. constructor; auto. eapply Forall_impl; [|exact F].
      intros z Z. apply le_spec in Z. assert (E' : le x y) by exact E. apply le_spec in E'. apply le_spec. lia.
Qed.
Lemma sort_sorted q : sorted (sort_stable q).
Proof. induction q; simpl; [constructor|]. now apply insert_sorted_ok. Qed.

Definition same (k : nat * nat) (e : edit) : bool := (e_start e =? fst k) && (e_end e =? snd k).
Lemma insert_filter k x l : filter (same k) (insert_sorted x l) = filter (same k) (x :: l).
Proof.
  induction l as [|y l IH]; simpl; auto. destruct (less y x) eqn:E; simpl; auto.
  rewrite IH. simpl. destruct (same k x) eqn:Kx, (same k y) eqn:Ky; auto.
  exfalso. unfold same in *. apply andb_prop in Kx as [A B], Ky as [C D].
  apply Nat.eqb_eq in A, B, C, D. apply less_spec in E. lia.
Qed.
Lemma sort_filter k q : filter (same k) (sort_stable q) = filter (same k) q.
Proof. induction q as [|x q IH]; auto. cbn [sort_stable]. rewrite insert_filter. simpl. now rewrite IH. Qed.

Lemma sorted_unique a b : sorted a -> sorted b -> (forall k, filter (same k) a = filter (same k) b) -> a = b.
Proof.
  revert b. induction a as [|x a IH]; intros b Sa Sb H.
  - destruct b as [|y b]; auto. specialize (H (e_start y, e_end y)). simpl in H.
    unfold same at 1 in H. simpl in H. rewrite !Nat.eqb_refl in H. discriminate.
  - destruct b as [|y b].
    + specialize (H (e_start x, e_end x)). simpl in H. unfold same at 1 in H. simpl in H. rewrite !Nat.eqb_refl in H. discriminate.
    + inversion Sa as [|? ? Fa Sa']; subst. inversion Sb as [|? ? Fb Sb']; subst.
      assert (L : forall u v p q, Forall (le u) p -> (forall k, filter (same k) (u :: p) = filter (same k) (v :: q)) -> le u v).
      { clear. intros u v p q F H. specialize (H (e_start v, e_end v)). simpl in H.
        assert (Sv : same (e_start v, e_end v) v = true) by (unfold same; simpl; now rewrite !Nat.eqb_refl).
        rewrite Sv in H. assert (I : In v (if same (e_start v, e_end v) u then u :: filter (same (e_start v, e_end v)) p else filter (same (e_start v, e_end v)) p)) by (rewrite H; now left).
        assert (J : v = u \/ In v p).
        { destruct (same (e_start v, e_end v) u); [destruct I as [->|I]; auto|]; apply filter_In in I; tauto. }
        destruct J as [->|J]; [apply le_spec; lia|]. rewrite Forall_forall in F. auto. }
      assert (L1 : le x y) by (eapply L; [exact Fa|exact H]).
      assert (L2 : le y x) by (eapply L; [exact Fb|intros k; symmetry; apply H]).
      apply le_spec in L1, L2. assert (E1 : e_start x = e_start y) by lia. assert (E2 : e_end x = e_end y) by lia.
      assert (SS : forall k, same k x = same k y) by (intros k; unfold same; now rewrite E1, E2).
      assert (x = y).
      { specialize (H (e_start x, e_end x)). simpl in H. rewrite <- (SS (e_start x, e_end x)) in H.
        assert (Sx : same (e_start x, e_end x) x = true) by (unfold same; simpl; now rewrite !Nat.eqb_refl).
        rewrite Sx in H. congruence. }
      subst y. f_equal. apply IH; auto. intros k. specialize (H k). simpl in H. destruct (same k x); congruence.
Qed.

(** Calling Bytes in between changes nothing. *)
Lemma sort_app_sort a b : sort_stable (sort_stable a ++ b) = sort_stable (a ++ b).
Proof.
  apply sorted_unique; try apply sort_sorted. intros k. rewrite !sort_filter, !filter_app, sort_filter. reflexivity.
Qed.

(** ** The loop against the specification *)
Lemma ins_nil q p : Forall (fun e => p < e_start e) q -> inserted q p = [] /\ replaced q p = [] /\ covered q p = false.
Proof.
  induction 1 as [|e q H F (A & B & C)]; auto. unfold inserted, replaced, covered in *. simpl.
  replace (e_start e =? p) with false by (symmetry; apply Nat.eqb_neq; lia).
  replace (e_start e <=? p) with false by (symmetry; apply Nat.leb_gt; lia). simpl. auto.
Qed.
Lemma edited_nil p old : edited [] p old = old.
Proof. revert p. induction old as [|c old IH]; intros p; simpl; auto. now rewrite IH. Qed.
Lemma edited_skip q p s old : Forall (fun e => s <= e_start e) q -> p <= s <= p + length old ->
  edited q p old = firstn (s - p) old ++ edited q s (skipn (s - p) old).
Proof.
  intros F. remember (s - p) as d eqn:D. revert p old D. induction d as [|d IH]; intros p old D L.
  - simpl. now replace s with p by lia.
  - destruct old as [|c old]; [simpl in L; lia|].
    destruct (ins_nil q p) as (A & B & C).
    { eapply Forall_impl; [|exact F]. simpl. intros. lia. }
    cbn [edited]. rewrite A, B, C. simpl. f_equal. apply IH; simpl in L; lia.
Qed.
(** an edit that ends at or before p is no longer seen (unless it is an insertion at p) *)
Lemma edited_past e q p old : e_end e <= p -> e_start e < p -> edited (e :: q) p old = edited q p old.
Proof.
  revert p. induction old as [|c old IH]; intros p L1 L2; cbn [edited]; unfold inserted, replaced, covered; cbn [filter existsb];
    replace (e_start e =? p) with false by (symmetry; apply Nat.eqb_neq; lia); cbn [andb]; auto.
  replace (p <? e_end e) with false by (symmetry; apply Nat.ltb_ge; lia). rewrite andb_false_r. cbn [orb].
  rewrite IH by lia. reflexivity.
Qed.
Lemma edited_insert e q p old : e_start e = p -> e_end e = p -> edited (e :: q) p old = e_new e ++ edited q p old.
Proof.
  intros E1 E2. destruct old as [|c old]; cbn [edited]; unfold inserted, replaced, covered; cbn [filter existsb];
    rewrite E1, E2, Nat.eqb_refl, Nat.ltb_irrefl; simpl; rewrite <- app_assoc; auto.
  do 3 f_equal. rewrite andb_false_r. simpl. rewrite edited_past by lia. reflexivity.
Qed.
Lemma edited_covered e q p old : e_start e < p -> p <= e_end e <= p + length old ->
  Forall (fun x => e_end e <= e_start x) q ->
  edited (e :: q) p old = edited q (e_end e) (skipn (e_end e - p) old).
Proof.
  intros L1 L2 F. remember (e_end e - p) as d eqn:D. revert p old D L1 L2. induction d as [|d IH]; intros p old D L1 L2.
  - replace (e_end e) with p by lia. simpl. apply edited_past; lia.
  - destruct old as [|c old]; [simpl in L2; lia|]. cbn [edited skipn].
    destruct (ins_nil q p) as (A & B & C).
    { eapply Forall_impl; [|exact F]. simpl. intros. lia. }
    unfold inserted in *. unfold replaced in *. unfold covered in *. cbn [filter existsb].
    replace (e_start e =? p) with false by (symmetry; apply Nat.eqb_neq; lia). cbn [andb]. rewrite A, B.
    replace (e_start e <=? p) with true by (symmetry; apply Nat.leb_le; lia).
    replace (p <? e_end e) with true by (symmetry; apply Nat.ltb_lt; lia). cbn. apply IH; simpl in L2; lia.
Qed.
Lemma edited_replace e q p old : e_start e = p -> p < e_end e <= p + length old ->
  Forall (fun x => e_end e <= e_start x) q ->
  edited (e :: q) p old = e_new e ++ edited q (e_end e) (skipn (e_end e - p) old).
Proof.
  intros E1 L F. destruct old as [|c old]; [simpl in L; lia|]. cbn [edited].
  destruct (ins_nil q p) as (A & B & C).
  { eapply Forall_impl; [|exact F]. simpl. intros. lia. }
  unfold inserted in *. unfold replaced in *. unfold covered in *. cbn [filter existsb].
  rewrite E1, Nat.eqb_refl, Nat.leb_refl.
  replace (p <? e_end e) with true by (symmetry; apply Nat.ltb_lt; lia).
  replace (e_end e =? p) with false by (symmetry; apply Nat.eqb_neq; lia). cbn [andb orb filter flat_map]. rewrite A. cbn [app flat_map].
  rewrite B, app_nil_r. f_equal. rewrite edited_covered by (simpl in L; auto; lia).
  replace (e_end e - p) with (S (e_end e - S p)) by lia. reflexivity.
Qed.

Lemma skipn_skipn' {A} n m (l : list A) : skipn n (skipn m l) = skipn (m + n) l.
Proof. revert l. induction m as [|m IH]; intros l; simpl; auto. destruct l; simpl; auto. now rewrite skipn_nil. Qed.
Lemma disjoint_sym a b : disjoint a b -> disjoint b a. Proof. unfold disjoint. tauto. Qed.
Lemma apply_sorted_spec q : forall offset rest,
  sorted q -> Forall (fun e => e_start e <= e_end e <= offset + length rest) q ->
  (Forall (fun e => offset <= e_start e) q -> non_overlapping q -> apply_sorted offset rest q = Some (edited q offset rest)) /\
  (~ (Forall (fun e => offset <= e_start e) q /\ non_overlapping q) -> apply_sorted offset rest q = None).
Proof.
  induction q as [|e q IH]; intros offset rest S V.
  - simpl. split; [now rewrite edited_nil|]. intros N. exfalso. apply N. split; constructor.
  - inversion S as [|? ? F Sq]; subst. inversion V as [|? ? Ve Vq]; subst.
    assert (Vq' : offset <= e_start e -> Forall (fun x => e_start x <= e_end x <= e_end e + length (skipn (e_end e - offset) rest)) q).
    { intros Lo. eapply Forall_impl; [|exact Vq]. simpl. intros x X. rewrite skipn_length. lia. }
    assert (FE : non_overlapping (e :: q) <-> Forall (fun x => e_end e <= e_start x) q /\ non_overlapping q).
    { split.
      - intros N. inversion N as [|? ? ND NQ]; subst. split; auto. rewrite Forall_forall in *. intros x I.
        specialize (ND x I). specialize (F x I). specialize (Vq x I). apply le_spec in F. unfold disjoint in ND. simpl in Vq. lia.
      - intros [A B]. constructor; auto. eapply Forall_impl; [|exact A]. simpl. intros x X. now left. }
    split.
    + intros Lo N. inversion Lo as [|? ? Le Lq]; subst. apply FE in N as [NE NQ].
      cbn [apply_sorted]. replace (e_start e <? offset) with false by (symmetry; apply Nat.ltb_ge; lia).
      destruct (IH (e_end e) (skipn (e_end e - offset) rest) Sq (Vq' Le)) as [I1 _]. rewrite I1 by auto. f_equal.
      rewrite (edited_skip (e :: q) offset (e_start e) rest); [|constructor; auto; eapply Forall_impl; [|exact F]; simpl; intros x X; apply le_spec in X; lia|lia].
      f_equal. destruct (Nat.eq_dec (e_start e) (e_end e)) as [Q|Q].
      * rewrite edited_insert by auto. now rewrite <- Q.
      * rewrite edited_replace; auto; [|rewrite skipn_length; lia].
        do 2 f_equal. rewrite skipn_skipn'. f_equal. lia.
    + intros N. cbn [apply_sorted]. destruct (e_start e <? offset) eqn:Lt; auto. apply Nat.ltb_ge in Lt.
      destruct (IH (e_end e) (skipn (e_end e - offset) rest) Sq (Vq' Lt)) as [_ I2]. rewrite I2; auto.
      intros [A B]. apply N. split.
      * constructor; auto. eapply Forall_impl; [|exact A]. simpl. lia.
      * now apply FE.
Qed.

Lemma non_overlapping_perm a b : Permutation a b -> non_overlapping a -> non_overlapping b.
Proof.
  induction 1 as [|x a b P IH|x y a|a b c P1 IH1 P2 IH2]; intros N; auto.
  - inversion N as [|? ? F N']; subst. constructor; [eapply Permutation_Forall; eauto|now apply IH].
  - inversion N as [|? ? F N']; subst. inversion N' as [|? ? F' N'']; subst. inversion F; subst.
    constructor; [constructor; [now apply disjoint_sym|auto]|]. constructor; auto.
Qed.

(** the specification does not depend on the order of non-overlapping edits, as long as
    insertions at the same position keep theirs *)
Lemma edited_ext a b p old : Permutation a b -> (forall k, filter (same k) a = filter (same k) b) ->
  non_overlapping a -> Forall (fun e => e_start e <= e_end e) a -> edited a p old = edited b p old.
Proof.
  intros P K N V. revert p.
  assert (A : forall p, inserted a p = inserted b p).
  { intros p. unfold inserted. f_equal. exact (K (p, p)). }
  assert (B : forall p, replaced a p = replaced b p).
  { intros p. unfold replaced. f_equal. set (f := fun e => (e_start e =? p) && (p <? e_end e)).
    assert (PF : Permutation (filter f a) (filter f b)).
    { clear -P. induction P; simpl; auto; [destruct (f x); auto|destruct (f x), (f y); auto; apply perm_swap|eapply perm_trans; eauto]. }
    assert (L : length (filter f a) <= 1).
    { clear -N V. subst f. induction N as [|x l F N IH]; simpl; auto. inversion V; subst.
      destruct ((e_start x =? p) && (p <? e_end x)) eqn:E; auto. simpl.
      replace (filter (fun e => (e_start e =? p) && (p <? e_end e)) l) with (@nil edit); auto. symmetry.
      apply andb_prop in E as [E1 E2]. apply Nat.eqb_eq in E1. apply Nat.ltb_lt in E2.
      clear -F E1 E2. induction F as [|y l D F IH]; simpl; auto.
      destruct ((e_start y =? p) && (p <? e_end y)) eqn:E; auto.
      apply andb_prop in E as [E3 E4]. apply Nat.eqb_eq in E3. apply Nat.ltb_lt in E4. unfold disjoint in D. lia. }
    destruct (filter f a) as [|x [|y l]]; simpl in L; try lia.
    - apply Permutation_nil in PF. now rewrite PF.
    - apply Permutation_length_1_inv in PF. now rewrite PF. }
  assert (C : forall p, covered a p = covered b p).
  { intros p. unfold covered. clear -P. induction P; simpl; auto; [now rewrite IHP|now rewrite !orb_assoc, (orb_comm (_ && _))|congruence]. }
  induction old as [|c old IH]; intros p; cbn [edited]; rewrite A, B, ?C, ?IH; reflexivity.
Qed.

(** ** Theorems *)
Lemma queue_spec old ops : forall q0 a, Forall (in_text old) a -> (forall k, filter (same k) q0 = filter (same k) a) -> Permutation a q0 ->
  match queue old q0 ops with
  | Some q => Forall (in_text old) (edits_of old ops) /\ Permutation (a ++ edits_of old ops) q /\
              (forall k, filter (same k) q = filter (same k) (a ++ edits_of old ops))
  | None => ~ Forall (in_text old) (edits_of old ops)
  end.
Proof.
  induction ops as [|o ops IH]; intros q0 a Va K P.
  - simpl. rewrite app_nil_r. repeat split; auto.
  - assert (PUSH : forall e, Forall (in_text old) [e] ->
      match queue old (q0 ++ [e]) ops with
      | Some q => Forall (in_text old) ([e] ++ edits_of old ops) /\ Permutation (a ++ [e] ++ edits_of old ops) q /\
                  (forall k, filter (same k) q = filter (same k) (a ++ [e] ++ edits_of old ops))
      | None => ~ Forall (in_text old) ([e] ++ edits_of old ops)
      end).
    { intros e Ve. specialize (IH (q0 ++ [e]) (a ++ [e])).
      destruct (queue old (q0 ++ [e]) ops).
      - destruct IH as (A & B & C).
        + apply Forall_app. auto.
        + intros k. rewrite !filter_app. now rewrite K.
        + now apply Permutation_app_tail.
        + rewrite !app_assoc. split; [now apply Forall_app|]. auto.
      - intros Q. apply Forall_app in Q as [_ Q]. apply IH; auto.
        + apply Forall_app. auto.
        + intros k. rewrite !filter_app. now rewrite K.
        + now apply Permutation_app_tail. }
    assert (BAD : forall e (r : list edit), ~ in_text old e -> ~ Forall (in_text old) ([e] ++ r)).
    { intros e r N F. inversion F; subst. contradiction. }
    assert (AD : forall st en, asks old (ODelete st en) = [Edit st (end_of old en) []]) by (intros ? [?|]; reflexivity).
    assert (AR : forall st en new, asks old (OReplace st en new) = [Edit st (end_of old en) new]) by (intros ? [?|] ?; reflexivity).
    cbn [queue edits_of flat_map]. fold (edits_of old ops). destruct o as [pos new|st en|st en new|]; rewrite ?AD, ?AR; cbn [step asks].
    + destruct (length old <? pos) eqn:E.
      * apply BAD. apply Nat.ltb_lt in E. unfold in_text. simpl. lia.
      * apply PUSH. constructor; auto. apply Nat.ltb_ge in E. unfold in_text. simpl. lia.
    + destruct ((end_of old en <? st) || (length old <? end_of old en)) eqn:E.
      * apply BAD. apply orb_prop in E as [E|E]; apply Nat.ltb_lt in E; unfold in_text; simpl; lia.
      * apply PUSH. constructor; auto. apply orb_false_iff in E as [E1 E2]. apply Nat.ltb_ge in E1, E2. unfold in_text. simpl. lia.
    + destruct ((end_of old en <? st) || (length old <? end_of old en)) eqn:E.
      * apply BAD. apply orb_prop in E as [E|E]; apply Nat.ltb_lt in E; unfold in_text; simpl; lia.
      * apply PUSH. constructor; auto. apply orb_false_iff in E as [E1 E2]. apply Nat.ltb_ge in E1, E2. unfold in_text. simpl. lia.
    + simpl. apply IH; auto.
      * intros k. now rewrite sort_filter.
      * eapply perm_trans; [exact P|apply sort_perm].
Qed.

(** For every text and every sequence of calls, Bytes calls in between included: calls
    with positions outside the text panic; overlapping edits panic when the text is
    asked for; otherwise the result is the text asked for. *)
Theorem C27_edits_compose :
  forall old ops,
    match queue old [] ops with
    | None => ~ Forall (in_text old) (edits_of old ops)
    | Some q =>
        Forall (in_text old) (edits_of old ops) /\
        (non_overlapping (edits_of old ops) -> bytes_of old q = Some (edited (edits_of old ops) 0 old)) /\
        (~ non_overlapping (edits_of old ops) -> bytes_of old q = None)
    end.
Proof.
  intros old ops. pose proof (queue_spec old ops [] [] (Forall_nil _) (fun k => eq_refl) (perm_nil _)) as H.
  destruct (queue old [] ops) as [q|]; auto. simpl in H. destruct H as (V & P & K). split; auto.
  assert (P' : Permutation (edits_of old ops) (sort_stable q)) by (eapply perm_trans; [exact P|apply sort_perm]).
  assert (Vs : Forall (fun e => e_start e <= e_end e <= 0 + length old) (sort_stable q)).
  { eapply Permutation_Forall; [exact P'|]. exact V. }
  destruct (apply_sorted_spec (sort_stable q) 0 old (sort_sorted q) Vs) as [S1 S2]. unfold bytes_of. split.
  - intros N. rewrite S1.
    + f_equal. symmetry. apply edited_ext; auto.
      * intros k. now rewrite sort_filter, K.
      * eapply Forall_impl; [|exact V]. unfold in_text. intros. lia.
    + apply Forall_forall. intros. lia.
    + eapply non_overlapping_perm; eauto.
  - intros N. apply S2. intros [_ Q]. apply N. eapply non_overlapping_perm; [|exact Q]. now apply Permutation_sym.
Qed.
Print Assumptions C27_edits_compose.

(** Asking for the text any number of times in between does not change the outcome. *)
Theorem C27_reading_in_between :
  forall old ops1 ops2 q1 q2,
    queue old [] (ops1 ++ OBytes :: ops2) = Some q1 -> queue old [] (ops1 ++ ops2) = Some q2 ->
    bytes_of old q1 = bytes_of old q2.
Proof.
  intros old ops1 ops2 q1 q2 H1 H2. unfold bytes_of. f_equal. apply sorted_unique; try apply sort_sorted.
  intros k. rewrite !sort_filter.
  pose proof (queue_spec old (ops1 ++ OBytes :: ops2) [] [] (Forall_nil _) (fun k => eq_refl) (perm_nil _)) as A.
  pose proof (queue_spec old (ops1 ++ ops2) [] [] (Forall_nil _) (fun k => eq_refl) (perm_nil _)) as B.
  rewrite H1 in A. rewrite H2 in B. destruct A as (_ & _ & A), B as (_ & _ & B). rewrite A, B. simpl.
  unfold edits_of. rewrite !flat_map_app. reflexivity.
Qed.
Print Assumptions C27_reading_in_between.

Example C27_example :
  let old := #"hello world" in
  let ops := [OInsert 5 #","; OReplace 6 (Some 11) #"moon"; OBytes; OInsert 6 #"big "; OInsert 0 #">"; OInsert 6 #"blue "; ODelete 1 (Some 3)] in
  Forall (in_text old) (edits_of old ops) /\ non_overlapping (edits_of old ops) /\
  option_map (bytes_of old) (queue old [] ops) = Some (Some #">hlo, big blue moon").
Proof.
  split; [|split].
  - repeat apply Forall_cons; try apply Forall_nil; split; vm_compute; lia.
  - unfold non_overlapping, disjoint. vm_compute.
    repeat (apply FOP_cons; [repeat apply Forall_cons; try apply Forall_nil; cbv beta iota; lia|]). apply FOP_nil.
  - vm_compute. reflexivity.
Qed.
