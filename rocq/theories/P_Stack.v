(** Proofs about M_Stack (C12, C13). *)
From Coq Require Import List Arith Bool ZArith Lia Sorted.
From Verif Require Import M_Stack S_Stack.
Import ListNotations.

(** ** Lists *)
Lemma upd_length {A} (l : list A) i f : length (upd l i f) = length l.
Proof. revert i. induction l; intros [|i]; simpl; auto. Qed.

Lemma nth_upd_same {A} (l : list A) i f d : i < length l -> nth i (upd l i f) d = f (nth i l d).
Proof. revert i. induction l; intros [|i] H; simpl in *; try lia; auto. apply IHl. lia. Qed.

Lemma nth_upd_other {A} (l : list A) i j f d : i <> j -> nth j (upd l i f) d = nth j l d.
Proof. revert i j. induction l; intros [|i] [|j] H; simpl; auto; try lia. Qed.

Lemma upd_app_l {A} (l r : list A) i f : i < length l -> upd (l ++ r) i f = upd l i f ++ r.
Proof. revert i. induction l; intros [|i] H; simpl in *; try lia; auto. f_equal. apply IHl. lia. Qed.

Lemma upd_app_mid {A} (l r : list A) x f : upd (l ++ x :: r) (length l) f = l ++ f x :: r.
Proof. induction l; simpl; auto. now f_equal. Qed.

Lemma get_app_l h e p : p < length h -> get (h ++ e) p = get h p.
Proof. intros. unfold get. now apply app_nth1. Qed.

Lemma get_app_mid h e r : get (h ++ e :: r) (length h) = e.
Proof. unfold get. rewrite app_nth2, Nat.sub_diag; auto. Qed.

Lemma get_out h p : length h <= p -> get h p = dummy_entry.
Proof. intros. unfold get. now apply nth_overflow. Qed.

Definition ch (h : list entry) (p : ptr) : list ptr := e_children (get h p).

Lemma ch_out h p : length h <= p -> ch h p = [].
Proof. intros. unfold ch. now rewrite get_out. Qed.

Lemma sorted_app_last l n : StronglySorted lt l -> (forall x, In x l -> x < n) -> StronglySorted lt (l ++ [n]).
Proof.
  induction l as [|x l IH]; simpl; intros S L.
  - constructor; constructor.
  - inversion S; subst. constructor; auto. apply Forall_app; split; auto.
Qed.

Lemma sorted_nodup l : StronglySorted lt l -> NoDup l.
Proof.
  induction 1; constructor; auto. intros I. rewrite Forall_forall in H0. apply H0 in I. lia.
Qed.

Lemma sorted_split l1 l2 l3 c1 c2 : StronglySorted lt (l1 ++ c1 :: l2 ++ c2 :: l3) -> c1 < c2.
Proof.
  induction l1 as [|x l1 IH]; simpl; intros S; inversion S; subst; auto.
  rewrite Forall_forall in H2. apply H2. apply in_or_app. right. now left.
Qed.

Definition last_is (l : list ptr) (p : ptr) : Prop := exists l', l = l' ++ [p].

Lemma last_is_snoc l p : last_is (l ++ [p]) p. Proof. now exists l. Qed.
Lemma last_is_in l p : last_is l p -> In p l.
Proof. intros [l' ->]. apply in_or_app. right. now left. Qed.
Lemma last_is_not_before l1 l2 l3 c1 c2 : NoDup (l1 ++ c1 :: l2 ++ c2 :: l3) ->
  ~ last_is (l1 ++ c1 :: l2 ++ c2 :: l3) c1.
Proof.
  intros ND [l' E].
  assert (E' : l1 ++ c1 :: l2 ++ c2 :: l3 = (l1 ++ [c1]) ++ l2 ++ c2 :: l3) by now rewrite <- app_assoc.
  destruct (@exists_last _ (l2 ++ c2 :: l3)) as (r & z & Er); [destruct l2; discriminate|].
  rewrite Er in *. change (c1 :: r ++ [z]) with ((c1 :: r) ++ [z]) in *. rewrite app_assoc in E.
  apply app_inj_tail in E as [_ E]. subst z.
  apply NoDup_remove_2 in ND. apply ND. rewrite !in_app_iff. right. right. now left.
Qed.

(** ** Reachability *)
Lemma reach_ext h h' roots p : (forall q, ch h q = ch h' q) -> reach h roots p -> reach h' roots p.
Proof.
  intros E R. induction R as [p I|p c R IH I]; [now apply reach_root|].
  apply reach_child with p; auto. change (In c (ch h' p)). rewrite <- E. exact I.
Qed.

Lemma reach_incl h r1 r2 p : (forall x, In x r1 -> In x r2) -> reach h r1 p -> reach h r2 p.
Proof.
  intros E R. induction R as [p I|p c R IH I]; [apply reach_root; auto|].
  apply reach_child with p; auto.
Qed.

Lemma desc_trans h p q r : desc h p q -> desc h q r -> desc h p r.
Proof.
  intros A B. unfold desc in *. induction B as [x I|x c R IH I].
  - destruct I as [<-|[]]. exact A.
  - apply reach_child with x; auto.
Qed.

(** ** Owners: ghost assignment of entries to live stacks (Some s) or snapshots (None) *)
Definition owner (own : list (option sid)) (p : ptr) : option sid := nth p own None.

Lemma owner_lt own p s : owner own p = Some s -> p < length own.
Proof.
  intros H. destruct (Nat.lt_ge_cases p (length own)); auto.
  unfold owner in H. rewrite nth_overflow in H; [discriminate|auto].
Qed.

Lemma owner_app_l own x p : p < length own -> owner (own ++ x) p = owner own p.
Proof. intros. unfold owner. now apply app_nth1. Qed.

Lemma owner_app_last own x : owner (own ++ [x]) (length own) = x.
Proof. unfold owner. rewrite app_nth2, Nat.sub_diag; auto. Qed.

Lemma owner_snoc_inv own s x p : owner (own ++ [x]) p = Some s ->
  (p < length own /\ owner own p = Some s) \/ (p = length own /\ x = Some s).
Proof.
  intros H. pose proof (owner_lt _ _ _ H) as L. rewrite app_length in L; simpl in L.
  destruct (Nat.eq_dec p (length own)) as [->|N].
  - rewrite owner_app_last in H. auto.
  - left. rewrite owner_app_l in H by lia. split; auto; lia.
Qed.

(** Facts not about open frames. *)
Record Base (h : list entry) (own : list (option sid)) (s : sid) (roots : list ptr) (maxid : nat) : Prop := {
  b_root : forall r, In r roots -> owner own r = Some s;
  b_root_parent : forall r, In r roots -> e_parent (get h r) = 0;
  b_root_sorted : StronglySorted lt roots;
  b_root_np : forall p c, owner own p = Some s -> In c (ch h p) -> ~ In c roots;
  b_ids : forall p q, p < q -> owner own p = Some s -> owner own q = Some s ->
      e_go (get h p) = None -> e_go (get h q) = None -> e_id (get h p) < e_id (get h q);
  b_max : forall p, owner own p = Some s -> e_go (get h p) = None -> e_id (get h p) <= maxid;
  b_parent : forall p c, owner own p = Some s -> In c (ch h p) -> e_go (get h c) = None ->
      e_parent (get h c) = e_id (get h p);
  b_child : forall p c, owner own p = Some s -> In c (ch h p) -> p < c /\ owner own c = Some s;
  b_sorted : forall p, owner own p = Some s -> StronglySorted lt (ch h p);
  b_uniq : forall p q c, owner own p = Some s -> owner own q = Some s ->
      In c (ch h p) -> In c (ch h q) -> p = q;
  b_right : forall p l1 l2 l3 c1 c2 d, owner own p = Some s ->
      ch h p = l1 ++ c1 :: l2 ++ c2 :: l3 -> desc h c1 d -> d < c2;
  b_right_roots : forall l1 l2 l3 c1 c2 d,
      roots = l1 ++ c1 :: l2 ++ c2 :: l3 -> desc h c1 d -> d < c2
}.

(** The chain of open frames, innermost first. *)
Fixpoint chain (h : list entry) (roots : list ptr) (fs : list (ptr * option ptr)) : Prop :=
  match fs with
  | [] => True
  | (p, o) :: r =>
      match r with
      | [] => o = None /\ last_is roots p
      | (t, _) :: _ => o = Some t /\ last_is (ch h t) p
      end /\ chain h roots r
  end.

Record Open (h : list entry) (own : list (option sid)) (s : sid) (st : stack) (fs : list (ptr * option ptr)) : Prop := {
  o_chain : chain h (s_roots st) fs;
  o_top : s_top st = match fs with [] => None | (p, _) :: _ => Some p end;
  o_depth : s_depth st = Z.of_nat (length fs);
  o_own : forall p o, In (p, o) fs -> owner own p = Some s /\ e_go (get h p) = None;
  o_open : forall p, owner own p = Some s -> e_go (get h p) = None ->
      (e_finished (get h p) = false <-> In p (map fst fs))
}.

Record HeapInv (h : list entry) (own : list (option sid)) (nst : nat) : Prop := {
  h_len : length own = length h;
  h_clone : forall p c, p < length h -> owner own p = None -> In c (ch h p) ->
      p < c /\ c < length h /\ owner own c = None;
  h_half : forall p, p < length h -> (e_finished (get h p) = false <-> e_res (get h p) = None);
  h_own : forall p s, owner own p = Some s -> s < nst
}.

Record Inv (w : world) (own : list (option sid)) : Prop := {
  i_len : length (w_gs w) = length (stacks (w_mem w));
  i_heap : HeapInv (heap (w_mem w)) own (length (stacks (w_mem w)));
  i_base : forall s, s < length (stacks (w_mem w)) ->
      Base (heap (w_mem w)) own s (s_roots (get_stack (w_mem w) s)) (s_maxid (get_stack (w_mem w) s));
  i_open : forall s, s < length (stacks (w_mem w)) ->
      Open (heap (w_mem w)) own s (get_stack (w_mem w) s) (g_frames (gor_at w s))
}.

(** ** Ancestors of an open frame are open frames *)
Lemma chain_in h roots fs p o : chain h roots fs -> In (p, o) fs ->
  last_is roots p \/ exists t o', In (t, o') fs /\ last_is (ch h t) p.
Proof.
  induction fs as [|[q oq] fs IH]; simpl; [tauto|]. intros [C R] [E|I].
  - injection E as -> ->. destruct fs as [|[t ot] fs].
    + left. tauto.
    + right. exists t, ot. split; [right; now left|tauto].
  - destruct (IH R I) as [L|(t & o' & I' & L)]; auto. right. exists t, o'. auto.
Qed.

Lemma anc_open h own s roots maxid st fs c t o :
  Base h own s roots maxid -> Open h own s st fs -> s_roots st = roots ->
  owner own c = Some s ->
  In (t, o) fs -> desc h c t -> exists o', In (c, o') fs.
Proof.
  intros B O ER OC I D. unfold desc in D. revert o I.
  induction D as [x Ix|x y R IH Iy]; intros o I.
  - destruct Ix as [<-|[]]. eauto.
  - assert (OX : owner own x = Some s).
    { clear IH I Iy o. induction R as [z Iz|z u R IHR Iu].
      - destruct Iz as [<-|[]]. auto.
      - eapply (b_child _ _ _ _ _ B); eauto. }
    destruct (chain_in _ _ _ _ _ (o_chain _ _ _ _ _ O) I) as [L|(u & o' & Iu & L)].
    + exfalso. apply last_is_in in L. rewrite ER in L.
      exact (b_root_np _ _ _ _ _ B x y OX Iy L).
    + apply last_is_in in L.
      destruct (o_own _ _ _ _ _ O _ _ Iu) as [OU _].
      assert (u = x) by (eapply (b_uniq _ _ _ _ _ B); eauto). subst u. eauto.
Qed.

(** ** Attaching a fresh entry under the top *)
Definition attach (h : list entry) (t : ptr) (e : entry) : list entry :=
  upd h t (add_child (length h)) ++ [e].

Lemma get_attach_old h t e p : p < length h ->
  get (attach h t e) p = if p =? t then add_child (length h) (get h p) else get h p.
Proof.
  intros L. unfold attach. rewrite get_app_l by now rewrite upd_length.
  destruct (p =? t) eqn:E.
  - apply Nat.eqb_eq in E; subst. unfold get. now rewrite nth_upd_same.
  - apply Nat.eqb_neq in E. unfold get. rewrite nth_upd_other; auto.
Qed.

Lemma get_attach_new h t e : get (attach h t e) (length h) = e.
Proof. unfold attach. rewrite <- (upd_length h t (add_child (length h))) at 2. apply get_app_mid. Qed.

Lemma attach_length h t e : length (attach h t e) = S (length h).
Proof. unfold attach. rewrite app_length, upd_length. simpl. lia. Qed.

Lemma ch_attach h t e p : p < length h ->
  ch (attach h t e) p = if p =? t then ch h p ++ [length h] else ch h p.
Proof.
  intros L. unfold ch. rewrite get_attach_old by auto. destruct (p =? t); reflexivity.
Qed.

Lemma ch_attach_in h t e p c : e_children e = [] -> In c (ch (attach h t e) p) ->
  (In c (ch h p) /\ p < length h) \/ (p = t /\ c = length h).
Proof.
  intros EE I. destruct (Nat.lt_ge_cases p (length h)) as [L|G].
  - rewrite ch_attach in I by auto. destruct (p =? t) eqn:E; auto.
    apply in_app_or in I as [I|[<-|[]]]; auto. right. apply Nat.eqb_eq in E. auto.
  - destruct (Nat.eq_dec p (length h)) as [->|N].
    + unfold ch in I. rewrite get_attach_new, EE in I. contradiction.
    + rewrite ch_out in I; [contradiction|]. rewrite attach_length. lia.
Qed.

Lemma desc_attach h own s roots maxid t e c d :
  Base h own s roots maxid -> length own = length h -> e_children e = [] ->
  owner own c = Some s -> desc (attach h t e) c d ->
  (desc h c d /\ owner own d = Some s) \/ (d = length h /\ desc h c t).
Proof.
  intros B EL EE OC D. unfold desc in D. induction D as [x I|x y R IH I].
  - destruct I as [<-|[]]. left. split; auto. apply reach_root. now left.
  - destruct IH as [[D O]|[-> D]].
    + apply ch_attach_in in I as [[I L]|[-> ->]]; auto.
      * left. split; [apply reach_child with x; auto|]. eapply (b_child _ _ _ _ _ B); eauto.
    + exfalso. change (In y (ch (attach h t e) (length h))) in I. unfold ch in I.
      rewrite get_attach_new, EE in I. contradiction.
Qed.

Lemma e_id_attach h t e p : p < length h -> e_id (get (attach h t e) p) = e_id (get h p).
Proof. intros L. rewrite get_attach_old by auto. destruct (p =? t); reflexivity. Qed.
Lemma e_go_attach h t e p : p < length h -> e_go (get (attach h t e) p) = e_go (get h p).
Proof. intros L. rewrite get_attach_old by auto. destruct (p =? t); reflexivity. Qed.
Lemma e_parent_attach h t e p : p < length h -> e_parent (get (attach h t e) p) = e_parent (get h p).
Proof. intros L. rewrite get_attach_old by auto. destruct (p =? t); reflexivity. Qed.
Lemma e_fin_attach h t e p : p < length h -> e_finished (get (attach h t e) p) = e_finished (get h p).
Proof. intros L. rewrite get_attach_old by auto. destruct (p =? t); reflexivity. Qed.
Lemma e_res_attach h t e p : p < length h -> e_res (get (attach h t e) p) = e_res (get h p).
Proof. intros L. rewrite get_attach_old by auto. destruct (p =? t); reflexivity. Qed.

Lemma split_snoc {A} (l l1 l2 l3 : list A) n c1 c2 : l ++ [n] = l1 ++ c1 :: l2 ++ c2 :: l3 ->
  (exists l3', l = l1 ++ c1 :: l2 ++ c2 :: l3') \/ (c2 = n /\ l = l1 ++ c1 :: l2).
Proof.
  intros E. destruct l3 as [|z l3] using rev_ind.
  - right. replace (l1 ++ c1 :: l2 ++ [c2]) with ((l1 ++ c1 :: l2) ++ [c2]) in E
      by (rewrite <- app_assoc; reflexivity).
    apply app_inj_tail in E as [-> ->]. auto.
  - left. exists l3. clear IHl3.
    replace (l1 ++ c1 :: l2 ++ c2 :: l3 ++ [z]) with ((l1 ++ c1 :: l2 ++ c2 :: l3) ++ [z]) in E.
    + now apply app_inj_tail in E as [-> _].
    + rewrite <- app_assoc. simpl. f_equal. f_equal. rewrite <- app_assoc. reflexivity.
Qed.

Section Attach.
  Variables (h : list entry) (own : list (option sid)) (s : sid) (st : stack) (fs : list (ptr * option ptr)).
  Variables (maxid' : nat) (e : entry).
  Hypothesis B : Base h own s (s_roots st) (s_maxid st).
  Hypothesis O : Open h own s st fs.
  Hypothesis EL : length own = length h.
  Hypothesis EE : e_children e = [].
  Hypothesis Hmax : s_maxid st <= maxid'.
  Hypothesis Hid : e_go e = None -> s_maxid st < e_id e <= maxid'.

  Let own' := own ++ [Some s].
  Let own_old p : p < length h -> owner own' p = owner own p.
  Proof. intros. unfold own'. apply owner_app_l. lia. Qed.
  Let own_new : owner own' (length h) = Some s.
  Proof. unfold own'. rewrite <- EL. apply owner_app_last. Qed.
  Let own_inv p : owner own' p = Some s -> (p < length h /\ owner own p = Some s) \/ p = length h.
  Proof. intros H. apply owner_snoc_inv in H as [[L H]|[-> _]]; [left|right]; auto. split; auto. lia. Qed.
  Let own_lt p : owner own p = Some s -> p < length h.
  Proof. intros H. apply owner_lt in H. lia. Qed.

  Lemma attach_base t o : In (t, o) fs -> hd_error fs = Some (t, o) ->
    (e_go e = None -> e_parent e = e_id (get h t)) ->
    Base (attach h t e) own' s (s_roots st) maxid'.
  Proof.
    intros It HD EP. destruct (o_own _ _ _ _ _ O _ _ It) as [OT CT].
    pose proof (own_lt _ OT) as LT.
    assert (NR : ~ In (length h) (s_roots st)).
    { intros I. apply (b_root _ _ _ _ _ B) in I. apply own_lt in I. lia. }
    assert (CHN : ch (attach h t e) (length h) = []) by (unfold ch; now rewrite get_attach_new).
    assert (RIGHT : forall p l1 l2 l3 c1 c2 d, owner own p = Some s ->
        ch h p = l1 ++ c1 :: l2 ++ c2 :: l3 -> owner own c1 = Some s ->
        desc (attach h t e) c1 d -> d < c2).
    { intros p l1 l2 l3 c1 c2 d OP E OC D.
      destruct (desc_attach _ _ _ _ _ _ _ _ _ B EL EE OC D) as [[D' _]|[-> D']].
      - exact (b_right _ _ _ _ _ B _ _ _ _ _ _ _ OP E D').
      - exfalso. destruct (anc_open _ _ _ _ _ _ _ _ _ _ B O eq_refl OC It D') as [o' Ic].
        assert (Ipc : In c1 (ch h p)) by (rewrite E; apply in_or_app; right; now left).
        destruct (chain_in _ _ _ _ _ (o_chain _ _ _ _ _ O) Ic) as [L|(u & o'' & Iu & L)].
        + apply last_is_in in L. exact (b_root_np _ _ _ _ _ B _ _ OP Ipc L).
        + destruct (o_own _ _ _ _ _ O _ _ Iu) as [OU _].
          assert (u = p) by (apply (b_uniq _ _ _ _ _ B u p c1 OU OP (last_is_in _ _ L) Ipc)).
          subst u. rewrite E in L. revert L. apply last_is_not_before.
          rewrite <- E. apply sorted_nodup, (b_sorted _ _ _ _ _ B). auto. }
    constructor.
    - intros r I. pose proof (b_root _ _ _ _ _ B r I) as X. rewrite own_old; auto.
    - intros r I. pose proof (b_root _ _ _ _ _ B r I) as X. rewrite e_parent_attach by auto.
      now apply (b_root_parent _ _ _ _ _ B).
    - apply (b_root_sorted _ _ _ _ _ B).
    - intros p c OP I. apply ch_attach_in in I as [[I L]|[-> ->]]; auto.
      apply (b_root_np _ _ _ _ _ B) with p; auto. rewrite <- own_old; auto.
    - intros p q L OP OQ GP GQ.
      apply own_inv in OP as [[LP OP]| ->]; [|apply own_inv in OQ as [[LQ OQ]| ->]; lia].
      rewrite e_go_attach in GP by auto. rewrite e_id_attach by auto.
      apply own_inv in OQ as [[LQ OQ]| ->].
      + rewrite e_go_attach in GQ by auto. rewrite e_id_attach by auto. now apply (b_ids _ _ _ _ _ B).
      + rewrite get_attach_new in *. pose proof (b_max _ _ _ _ _ B _ OP GP). apply Hid in GQ. lia.
    - intros p OP GP. apply own_inv in OP as [[LP OP]| ->].
      + rewrite e_go_attach in GP by auto. rewrite e_id_attach by auto.
        pose proof (b_max _ _ _ _ _ B _ OP GP). lia.
      + rewrite get_attach_new in *. apply Hid in GP. lia.
    - intros p c OP I GC. apply ch_attach_in in I as [[I L]|[-> ->]]; auto.
      + rewrite own_old in OP by auto. destruct (b_child _ _ _ _ _ B _ _ OP I) as [_ OC].
        pose proof (own_lt _ OC). rewrite e_parent_attach, e_id_attach by auto.
        rewrite e_go_attach in GC by auto. now apply (b_parent _ _ _ _ _ B).
      + rewrite get_attach_new in *. rewrite e_id_attach by auto. auto.
    - intros p c OP I. apply ch_attach_in in I as [[I L]|[-> ->]]; auto.
      rewrite own_old in OP by auto. destruct (b_child _ _ _ _ _ B _ _ OP I) as [LC OC].
      split; auto. rewrite own_old; auto.
    - intros p OP. apply own_inv in OP as [[LP OP]| ->].
      + rewrite ch_attach by auto. destruct (p =? t); [|now apply (b_sorted _ _ _ _ _ B)].
        apply sorted_app_last; [now apply (b_sorted _ _ _ _ _ B)|].
        intros x I. apply own_lt. eapply (b_child _ _ _ _ _ B); eauto.
      + rewrite CHN. constructor.
    - intros p q c OP OQ IP IQ.
      apply ch_attach_in in IP as [[IP LP]|[-> ->]]; auto;
      apply ch_attach_in in IQ as [[IQ LQ]|[-> E]]; auto.
      + rewrite own_old in OP, OQ by auto. eapply (b_uniq _ _ _ _ _ B); eauto.
      + exfalso. subst c. rewrite own_old in OP by auto.
        destruct (b_child _ _ _ _ _ B _ _ OP IP) as [_ X]. apply own_lt in X. lia.
      + exfalso. rewrite own_old in OQ by auto.
        destruct (b_child _ _ _ _ _ B _ _ OQ IQ) as [_ X]. apply own_lt in X. lia.
    - intros p l1 l2 l3 c1 c2 d OP E D. apply own_inv in OP as [[LP OP]| ->].
      + rewrite ch_attach in E by auto.
        assert (Ic : In c1 (ch h p) -> owner own c1 = Some s) by (intros; eapply (b_child _ _ _ _ _ B); eauto).
        destruct (p =? t) eqn:Et.
        * apply split_snoc in E as [[l3' E]|[-> E]].
          -- refine (RIGHT _ _ _ _ _ _ _ OP E _ D). apply Ic. rewrite E. apply in_or_app; right; now left.
          -- apply Nat.eqb_eq in Et; subst p.
             assert (OC : owner own c1 = Some s) by (apply Ic; rewrite E; apply in_or_app; right; now left).
             destruct (desc_attach _ _ _ _ _ _ _ _ _ B EL EE OC D) as [[D' O']|[-> D']].
             ++ now apply own_lt.
             ++ exfalso. (* t below its own child *)
                assert (X : t < c1) by (eapply (b_child _ _ _ _ _ B); eauto; rewrite E; apply in_or_app; right; now left).
                assert (Y : forall z, desc h c1 z -> c1 <= z /\ owner own z = Some s).
                { intros z Dz. unfold desc in Dz. induction Dz as [z Iz|z u R IH Iu].
                  - destruct Iz as [<-|[]]; auto.
                  - destruct IH as [L1 O1]. destruct (b_child _ _ _ _ _ B _ _ O1 Iu). split; auto. lia. }
                apply Y in D'. lia.
        * refine (RIGHT _ _ _ _ _ _ _ OP E _ D). apply Ic. rewrite E. apply in_or_app; right; now left.
      + rewrite CHN in E. destruct l1; discriminate.
    - intros l1 l2 l3 c1 c2 d E D.
      assert (OC : owner own c1 = Some s) by (apply (b_root _ _ _ _ _ B); rewrite E; apply in_or_app; right; now left).
      destruct (desc_attach _ _ _ _ _ _ _ _ _ B EL EE OC D) as [[D' _]|[-> D']].
      + eapply (b_right_roots _ _ _ _ _ B); eauto.
      + exfalso. destruct (anc_open _ _ _ _ _ _ _ _ _ _ B O eq_refl OC It D') as [o' Ic].
        assert (Ir : In c1 (s_roots st)) by (rewrite E; apply in_or_app; right; now left).
        destruct (chain_in _ _ _ _ _ (o_chain _ _ _ _ _ O) Ic) as [L|(u & o'' & Iu & L)].
        * rewrite E in L. revert L. apply last_is_not_before. rewrite <- E.
          apply sorted_nodup, (b_root_sorted _ _ _ _ _ B).
        * apply last_is_in in L. destruct (o_own _ _ _ _ _ O _ _ Iu) as [OU _].
          exact (b_root_np _ _ _ _ _ B _ _ OU L Ir).
  Qed.

  (** New root when nothing is open. *)
  Lemma attach_root : fs = [] -> e_parent e = 0 ->
    Base (h ++ [e]) own' s (s_roots st ++ [length h]) maxid'.
  Proof.
    intros EF EP.
    assert (G : forall p, p < length h -> get (h ++ [e]) p = get h p) by (intros; now apply get_app_l).
    assert (GN : get (h ++ [e]) (length h) = e) by apply get_app_mid.
    assert (CI : forall p c, In c (ch (h ++ [e]) p) -> In c (ch h p) /\ p < length h).
    { intros p c I. destruct (Nat.lt_ge_cases p (length h)) as [L|Ge].
      - unfold ch in *. rewrite G in I by auto. auto.
      - exfalso. destruct (Nat.eq_dec p (length h)) as [->|N].
        + unfold ch in I. rewrite GN, EE in I. contradiction.
        + rewrite ch_out in I; [contradiction|]. rewrite app_length. simpl. lia. }
    assert (DI : forall c d, owner own c = Some s -> desc (h ++ [e]) c d -> desc h c d /\ owner own d = Some s).
    { intros c d OC D. unfold desc in D. induction D as [x I|x y R IH I].
      - destruct I as [<-|[]]. split; auto. apply reach_root. now left.
      - destruct IH as [D O']. apply CI in I as [I L]. split; [apply reach_child with x; auto|].
        eapply (b_child _ _ _ _ _ B); eauto. }
    constructor.
    - intros r I. apply in_app_or in I as [I|[<-|[]]]; auto.
      pose proof (b_root _ _ _ _ _ B r I) as X. rewrite own_old; auto.
    - intros r I. apply in_app_or in I as [I|[<-|[]]]; [|now rewrite GN].
      pose proof (b_root _ _ _ _ _ B r I) as X. rewrite G by auto. now apply (b_root_parent _ _ _ _ _ B).
    - apply sorted_app_last; [apply (b_root_sorted _ _ _ _ _ B)|].
      intros x I. apply own_lt. now apply (b_root _ _ _ _ _ B).
    - intros p c OP I. apply CI in I as [I L]. rewrite own_old in OP by auto.
      rewrite in_app_iff. intros [J|[<-|[]]].
      + exact (b_root_np _ _ _ _ _ B _ _ OP I J).
      + destruct (b_child _ _ _ _ _ B _ _ OP I) as [_ X]. apply own_lt in X. lia.
    - intros p q L OP OQ GP GQ.
      apply own_inv in OP as [[LP OP]| ->]; [|apply own_inv in OQ as [[LQ OQ]| ->]; lia].
      rewrite G in * by auto.
      apply own_inv in OQ as [[LQ OQ]| ->].
      + rewrite G in * by auto. now apply (b_ids _ _ _ _ _ B).
      + rewrite GN in *. pose proof (b_max _ _ _ _ _ B _ OP GP). apply Hid in GQ. lia.
    - intros p OP GP. apply own_inv in OP as [[LP OP]| ->].
      + rewrite G in * by auto. pose proof (b_max _ _ _ _ _ B _ OP GP). lia.
      + rewrite GN in *. apply Hid in GP. lia.
    - intros p c OP I GC. apply CI in I as [I L]. rewrite own_old in OP by auto.
      destruct (b_child _ _ _ _ _ B _ _ OP I) as [_ OC]. pose proof (own_lt _ OC).
      rewrite !G in * by auto. now apply (b_parent _ _ _ _ _ B).
    - intros p c OP I. apply CI in I as [I L]. rewrite own_old in OP by auto.
      destruct (b_child _ _ _ _ _ B _ _ OP I) as [LC OC]. split; auto. rewrite own_old; auto.
    - intros p OP. apply own_inv in OP as [[LP OP]| ->].
      + unfold ch. rewrite G by auto. now apply (b_sorted _ _ _ _ _ B).
      + unfold ch. rewrite GN, EE. constructor.
    - intros p q c OP OQ IP IQ. apply CI in IP as [IP LP]. apply CI in IQ as [IQ LQ].
      rewrite own_old in OP, OQ by auto. eapply (b_uniq _ _ _ _ _ B); eauto.
    - intros p l1 l2 l3 c1 c2 d OP E D.
      assert (I : In c1 (ch (h ++ [e]) p)) by (rewrite E; apply in_or_app; right; now left).
      apply CI in I as [I L]. rewrite own_old in OP by auto.
      assert (OC : owner own c1 = Some s) by (eapply (b_child _ _ _ _ _ B); eauto).
      apply DI in D as [D _]; auto. unfold ch in E. rewrite G in E by auto.
      exact (b_right _ _ _ _ _ B _ _ _ _ _ _ _ OP E D).
    - intros l1 l2 l3 c1 c2 d E D.
      assert (Ic : In c1 (s_roots st)).
      { apply split_snoc in E as [[l3' E]|[_ E]]; rewrite E; apply in_or_app; right; now left. }
      assert (OC : owner own c1 = Some s) by now apply (b_root _ _ _ _ _ B).
      apply DI in D as [D OD]; auto.
      apply split_snoc in E as [[l3' E]|[-> E]].
      + eapply (b_right_roots _ _ _ _ _ B); eauto.
      + now apply own_lt.
  Qed.
End Attach.
