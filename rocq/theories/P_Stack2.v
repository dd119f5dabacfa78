(** Proofs about M_Stack, continued: preservation of the invariant, C12. *)
From Coq Require Import List Arith Bool ZArith Lia Sorted.
From Verif Require Import M_Stack S_Stack P_Stack.
Import ListNotations.

Lemma desc_owner h own s roots maxid c d : Base h own s roots maxid -> owner own c = Some s ->
  desc h c d -> owner own d = Some s.
Proof.
  intros B OC D. unfold desc in D. induction D as [x I|x y R IH I].
  - destruct I as [<-|[]]; auto.
  - eapply (b_child _ _ _ _ _ B); eauto.
Qed.

Definition agree (e e' : entry) : Prop :=
  e_id e' = e_id e /\ e_parent e' = e_parent e /\ e_go e' = e_go e /\ e_children e' = e_children e.

Lemma agree_refl e : agree e e. Proof. unfold agree; auto. Qed.

Lemma base_frame h h' own own' s roots maxid : Base h own s roots maxid ->
  (forall p, owner own' p = Some s <-> owner own p = Some s) ->
  (forall p, owner own p = Some s -> agree (get h p) (get h' p)) ->
  Base h' own' s roots maxid.
Proof.
  intros B EO A.
  assert (AC : forall p, owner own p = Some s -> ch h' p = ch h p) by (intros p O; apply (A p O)).
  assert (D' : forall c d, owner own c = Some s -> desc h' c d -> desc h c d /\ owner own d = Some s).
  { intros c d OC D. unfold desc in D. induction D as [x I|x y R IH I].
    - destruct I as [<-|[]]. split; auto. apply reach_root; now left.
    - destruct IH as [D O]. change (In y (ch h' x)) in I. rewrite AC in I by auto.
      split; [apply reach_child with x; auto|]. eapply (b_child _ _ _ _ _ B); eauto. }
  constructor.
  - intros r I. apply EO. now apply (b_root _ _ _ _ _ B).
  - intros r I. pose proof (b_root _ _ _ _ _ B _ I) as O. destruct (A _ O) as (_ & -> & _).
    now apply (b_root_parent _ _ _ _ _ B).
  - apply (b_root_sorted _ _ _ _ _ B).
  - intros p c OP I. apply EO in OP. rewrite AC in I by auto. eapply (b_root_np _ _ _ _ _ B); eauto.
  - intros p q L OP OQ GP GQ. apply EO in OP, OQ.
    destruct (A _ OP) as (E1 & _ & E2 & _), (A _ OQ) as (E3 & _ & E4 & _).
    rewrite E1, E3. rewrite E2 in GP. rewrite E4 in GQ. now apply (b_ids _ _ _ _ _ B).
  - intros p OP GP. apply EO in OP. destruct (A _ OP) as (E1 & _ & E2 & _). rewrite E1. rewrite E2 in GP.
    now apply (b_max _ _ _ _ _ B).
  - intros p c OP I GC. apply EO in OP. rewrite AC in I by auto.
    destruct (b_child _ _ _ _ _ B _ _ OP I) as [_ OC].
    destruct (A _ OP) as (E1 & _), (A _ OC) as (_ & E2 & E3 & _). rewrite E1, E2. rewrite E3 in GC.
    now apply (b_parent _ _ _ _ _ B).
  - intros p c OP I. apply EO in OP. rewrite AC in I by auto.
    destruct (b_child _ _ _ _ _ B _ _ OP I). split; auto. now apply EO.
  - intros p OP. apply EO in OP. rewrite AC by auto. now apply (b_sorted _ _ _ _ _ B).
  - intros p q c OP OQ IP IQ. apply EO in OP, OQ. rewrite AC in IP, IQ by auto.
    eapply (b_uniq _ _ _ _ _ B); eauto.
  - intros p l1 l2 l3 c1 c2 d OP E D. apply EO in OP. rewrite AC in E by auto.
    assert (OC : owner own c1 = Some s).
    { eapply (b_child _ _ _ _ _ B); [exact OP|]. rewrite E. apply in_or_app; right; now left. }
    apply D' in D as [D _]; auto. exact (b_right _ _ _ _ _ B _ _ _ _ _ _ _ OP E D).
  - intros l1 l2 l3 c1 c2 d E D.
    assert (OC : owner own c1 = Some s).
    { apply (b_root _ _ _ _ _ B). rewrite E. apply in_or_app; right; now left. }
    apply D' in D as [D _]; auto. exact (b_right_roots _ _ _ _ _ B _ _ _ _ _ _ E D).
Qed.

Lemma base_maxid h own s roots m m' : Base h own s roots m -> m <= m' -> Base h own s roots m'.
Proof.
  intros B L. pose proof (b_max _ _ _ _ _ B) as X. destruct B. constructor; auto.
  intros p O G. specialize (X p O G). lia.
Qed.

Lemma chain_ext h h' roots fs : chain h roots fs ->
  (forall q o, In (q, o) (tl fs) -> ch h' q = ch h q) -> chain h' roots fs.
Proof.
  induction fs as [|[p o] fs IH]; simpl; auto. intros [C R] E. split.
  - destruct fs as [|[t ot] fs]; auto. rewrite (E t ot); auto. now left.
  - apply IH; auto. intros q oq I. apply (E q oq). destruct fs; simpl in *; auto.
Qed.

Lemma chain_head_max h own s roots maxid fs p o : Base h own s roots maxid ->
  (forall q oq, In (q, oq) ((p, o) :: fs) -> owner own q = Some s) ->
  chain h roots ((p, o) :: fs) -> forall q oq, In (q, oq) fs -> q < p.
Proof.
  intros B. revert p o. induction fs as [|[t ot] fs IH]; intros p o OW C q oq I; [contradiction|].
  destruct C as [[-> L] C].
  assert (t < p).
  { eapply (b_child _ _ _ _ _ B); [|apply last_is_in; exact L]. eapply OW. right; now left. }
  destruct I as [E|I]; [now injection E as -> ->|].
  assert (q < t); [|lia]. eapply IH; eauto. intros x ox Ix. eapply OW. right; eauto.
Qed.

Lemma open_frame h h' own own' s st fs : Open h own s st fs ->
  (forall p, owner own' p = Some s <-> owner own p = Some s) ->
  (forall p, owner own p = Some s -> get h' p = get h p) ->
  Open h' own' s st fs.
Proof.
  intros O EO A. constructor.
  - apply chain_ext with h; [apply (o_chain _ _ _ _ _ O)|]. intros q oq I. unfold ch. rewrite A; auto.
    eapply (o_own _ _ _ _ _ O). destruct fs; simpl in *; eauto.
  - apply (o_top _ _ _ _ _ O).
  - apply (o_depth _ _ _ _ _ O).
  - intros p o I. destruct (o_own _ _ _ _ _ O _ _ I). rewrite A by auto. split; auto. now apply EO.
  - intros p OP GP. apply EO in OP. rewrite A in * by auto. now apply (o_open _ _ _ _ _ O).
Qed.

Lemma attach_open h own s st fs t o e : Base h own s (s_roots st) (s_maxid st) -> Open h own s st fs ->
  length own = length h -> hd_error fs = Some (t, o) ->
  e_finished e = false ->
  forall st' (call : bool),
    s_roots st' = s_roots st ->
    s_top st' = (if call then Some (length h) else s_top st) ->
    s_depth st' = (if call then s_depth st + 1 else s_depth st)%Z ->
    (if call then e_go e = None else e_go e <> None) ->
    Open (attach h t e) (own ++ [Some s]) s st' (if call then (length h, Some t) :: fs else fs).
Proof.
  intros B O EL HD EF st' call ER ET ED EG.
  destruct fs as [|[t' o'] fs]; simpl in HD; [discriminate|]. injection HD as -> ->.
  assert (OW : forall q oq, In (q, oq) ((t, o) :: fs) -> owner own q = Some s) by (intros; eapply (o_own _ _ _ _ _ O); eauto).
  assert (LW : forall q, owner own q = Some s -> q < length h) by (intros q X; apply owner_lt in X; lia).
  pose proof (chain_head_max _ _ _ _ _ _ _ _ B OW (o_chain _ _ _ _ _ O)) as HM.
  assert (C' : chain (attach h t e) (s_roots st) ((t, o) :: fs)).
  { apply chain_ext with h; [apply (o_chain _ _ _ _ _ O)|]. simpl. intros q oq I.
    pose proof (HM _ _ I). rewrite ch_attach by (apply LW, (OW q oq); now right).
    replace (q =? t) with false; auto. symmetry. apply Nat.eqb_neq. lia. }
  assert (OO : forall p, owner (own ++ [Some s]) p = Some s -> p < length h -> owner own p = Some s).
  { intros p X L. rewrite owner_app_l in X by lia. auto. }
  assert (OPEN : forall p, owner (own ++ [Some s]) p = Some s -> p < length h -> e_go (get (attach h t e) p) = None ->
     (e_finished (get (attach h t e) p) = false <-> In p (map fst ((t, o) :: fs)))).
  { intros p OP L GP. rewrite e_fin_attach, e_go_attach in * by auto. apply (o_open _ _ _ _ _ O); auto. }
  assert (OWN' : forall p o', In (p, o') ((t, o) :: fs) ->
     owner (own ++ [Some s]) p = Some s /\ e_go (get (attach h t e) p) = None).
  { intros p op I. destruct (o_own _ _ _ _ _ O _ _ I) as [X Y]. pose proof (LW _ X).
    rewrite e_go_attach by auto. rewrite owner_app_l by lia. auto. }
  destruct call; constructor.
  - simpl. rewrite ER. split; [|exact C']. split; auto.
    rewrite ch_attach by (apply LW, (OW t o); now left). rewrite Nat.eqb_refl. apply last_is_snoc.
  - now rewrite ET.
  - rewrite ED, (o_depth _ _ _ _ _ O). simpl length. lia.
  - intros p op [E|I]; [|now apply OWN' in I]. injection E as <- <-. split.
    + rewrite <- EL. apply owner_app_last.
    + now rewrite get_attach_new.
  - intros p OP GP. destruct (owner_snoc_inv _ _ _ _ OP) as [[L X]|[-> _]].
    + rewrite OPEN by (auto; lia). simpl. split; [intuition|]. intros [E|I]; auto. lia.
    + rewrite EL, get_attach_new. simpl. split; auto.
  - rewrite ER. exact C'.
  - rewrite ET. apply (o_top _ _ _ _ _ O).
  - rewrite ED. apply (o_depth _ _ _ _ _ O).
  - exact OWN'.
  - intros p OP GP. destruct (owner_snoc_inv _ _ _ _ OP) as [[L X]|[-> _]].
    + apply OPEN; auto; lia.
    + rewrite EL, get_attach_new in GP. contradiction.
Qed.

Lemma root_open h own s st e : Base h own s (s_roots st) (s_maxid st) -> Open h own s st [] ->
  length own = length h -> e_finished e = false -> e_go e = None ->
  forall st', s_roots st' = s_roots st ++ [length h] -> s_top st' = Some (length h) ->
    s_depth st' = (s_depth st + 1)%Z ->
    Open (h ++ [e]) (own ++ [Some s]) s st' [(length h, None)].
Proof.
  intros B O EL EF EG st' ER ET ED. constructor.
  - simpl. rewrite ER. split; auto. split; auto. apply last_is_snoc.
  - now rewrite ET.
  - rewrite ED, (o_depth _ _ _ _ _ O). reflexivity.
  - intros p o [E|[]]. injection E as <- <-. split.
    + rewrite <- EL. apply owner_app_last.
    + now rewrite get_app_mid.
  - intros p OP GP. destruct (owner_snoc_inv _ _ _ _ OP) as [[L X]|[-> _]].
    + rewrite get_app_l in * by lia. rewrite (o_open _ _ _ _ _ O) by auto. simpl. split; [tauto|]. intros [E|[]]. lia.
    + rewrite EL, get_app_mid. simpl. split; auto.
Qed.

Lemma heapinv_attach h own n s t e : HeapInv h own n -> s < n -> owner own t = Some s ->
  e_children e = [] -> (e_finished e = false <-> e_res e = None) ->
  HeapInv (attach h t e) (own ++ [Some s]) n.
Proof.
  intros H L OT EE HF. pose proof (h_len _ _ _ H) as EL. constructor.
  - rewrite app_length, attach_length. simpl. lia.
  - intros p c LP OP I. rewrite attach_length in LP. apply ch_attach_in in I as [[I LP']|[-> ->]]; auto.
    + rewrite owner_app_l in OP by lia. destruct (h_clone _ _ _ H _ _ LP' OP I) as (A & B & C).
      rewrite attach_length. repeat split; auto. rewrite owner_app_l by lia. auto.
    + exfalso. pose proof (owner_lt _ _ _ OT). rewrite owner_app_l in OP by auto. congruence.
  - intros p LP. rewrite attach_length in LP. destruct (Nat.eq_dec p (length h)) as [->|N].
    + now rewrite get_attach_new.
    + rewrite e_fin_attach, e_res_attach by lia. apply (h_half _ _ _ H). lia.
  - intros p s' OP. destruct (owner_snoc_inv _ _ _ _ OP) as [[L' X]|[_ X]].
    + now apply (h_own _ _ _ H) in X.
    + injection X as <-. auto.
Qed.

Lemma heapinv_app h own n s e : HeapInv h own n -> s < n ->
  e_children e = [] -> (e_finished e = false <-> e_res e = None) ->
  HeapInv (h ++ [e]) (own ++ [Some s]) n.
Proof.
  intros H L EE HF. pose proof (h_len _ _ _ H) as EL. constructor.
  - rewrite !app_length. simpl. lia.
  - intros p c LP OP I. rewrite app_length in LP; simpl in LP. destruct (Nat.eq_dec p (length h)) as [->|N].
    + unfold ch in I. rewrite get_app_mid, EE in I. contradiction.
    + unfold ch in I. rewrite get_app_l in I by lia. rewrite owner_app_l in OP by lia.
      destruct (h_clone _ _ _ H p c ltac:(lia) OP I) as (A & B & C).
      rewrite app_length. simpl. repeat split; auto; [lia|]. rewrite owner_app_l by lia. auto.
  - intros p LP. rewrite app_length in LP; simpl in LP. destruct (Nat.eq_dec p (length h)) as [->|N].
    + now rewrite get_app_mid.
    + rewrite get_app_l by lia. apply (h_half _ _ _ H). lia.
  - intros p s' OP. destruct (owner_snoc_inv _ _ _ _ OP) as [[L' X]|[_ X]].
    + now apply (h_own _ _ _ H) in X.
    + injection X as <-. auto.
Qed.

(** Other stacks are untouched by appending an entry owned by s. *)
Lemma owner_snoc_other own s s' p : s <> s' -> (owner (own ++ [Some s]) p = Some s' <-> owner own p = Some s').
Proof.
  intros N. split; intros X.
  - destruct (owner_snoc_inv _ _ _ _ X) as [[_ Y]|[_ Y]]; auto. congruence.
  - rewrite owner_app_l; auto. now apply owner_lt in X.
Qed.

Lemma get_stack_upd_same m h s f : s < length (stacks m) ->
  get_stack (Mem h (upd (stacks m) s f)) s = f (get_stack m s).
Proof. intros. unfold get_stack. simpl. now apply nth_upd_same. Qed.
Lemma get_stack_upd_other m h s s' f : s <> s' ->
  get_stack (Mem h (upd (stacks m) s f)) s' = get_stack m s'.
Proof. intros. unfold get_stack. simpl. now apply nth_upd_other. Qed.
Lemma gor_upd_same m w g f : g < length (w_gs w) -> gor_at (World m (upd (w_gs w) g f)) g = f (gor_at w g).
Proof. intros. unfold gor_at. simpl. now apply nth_upd_same. Qed.
Lemma gor_upd_other m w g g' f : g <> g' -> gor_at (World m (upd (w_gs w) g f)) g' = gor_at w g'.
Proof. intros. unfold gor_at. simpl. now apply nth_upd_other. Qed.

Lemma alive_lt w g : g_alive (gor_at w g) = true -> g < length (w_gs w).
Proof.
  intros H. destruct (Nat.lt_ge_cases g (length (w_gs w))); auto.
  unfold gor_at in H. rewrite nth_overflow in H; [discriminate|auto].
Qed.

Lemma step_push w own g fn args w' : Inv w own -> step w (APush g fn args) = Some w' ->
  Inv w' (own ++ [Some g]).
Proof.
  intros I H. simpl in H. destruct (g_alive (gor_at w g)) eqn:AL; [|discriminate].
  pose proof (alive_lt _ _ AL) as Lg. pose proof (i_len _ _ I) as IL.
  assert (Ls : g < length (stacks (w_mem w))) by lia.
  pose proof (i_base _ _ I g Ls) as B. pose proof (i_open _ _ I g Ls) as O. pose proof (i_heap _ _ I) as HI.
  pose proof (h_len _ _ _ HI) as EL.
  unfold push_new in H. pose proof (o_top _ _ _ _ _ O) as ET.
  destruct (s_top (get_stack (w_mem w) g)) as [t|] eqn:Et.
  - destruct (g_frames (gor_at w g)) as [|[t' o] fs] eqn:Ef; [discriminate|]. injection ET as <-.
    injection H as <-.
    set (e := Entry _ _ _ _ _ _ _ _). fold (attach (heap (w_mem w)) t e).
    assert (OT : owner own t = Some g) by (eapply (o_own _ _ _ _ _ O); now left).
    constructor; simpl.
    + now rewrite !upd_length.
    + rewrite upd_length. apply heapinv_attach; auto. simpl. tauto.
    + rewrite upd_length. intros s Hs. destruct (Nat.eq_dec g s) as [<-|N].
      * rewrite get_stack_upd_same by auto. simpl.
        eapply (attach_base (heap (w_mem w)) own g (get_stack (w_mem w) g) ((t, o) :: fs)); eauto; simpl; auto; try lia.
      * rewrite get_stack_upd_other by auto.
        apply base_frame with (heap (w_mem w)) own; [apply (i_base _ _ I); auto|intros; now apply owner_snoc_other|].
        intros p OP. pose proof (owner_lt _ _ _ OP). rewrite get_attach_old by lia.
        destruct (p =? t) eqn:E; [|apply agree_refl]. apply Nat.eqb_eq in E. congruence.
    + rewrite upd_length. intros s Hs. destruct (Nat.eq_dec g s) as [<-|N].
      * rewrite get_stack_upd_same, gor_upd_same by auto. simpl. rewrite Ef.
        apply (attach_open _ _ _ (get_stack (w_mem w) g) ((t, o) :: fs) t o e B) with (call := true); auto.
      * rewrite get_stack_upd_other, gor_upd_other by auto.
        apply open_frame with (heap (w_mem w)) own; [apply (i_open _ _ I); auto|intros; now apply owner_snoc_other|].
        intros p OP. pose proof (owner_lt _ _ _ OP). rewrite get_attach_old by lia.
        destruct (p =? t) eqn:E; auto. apply Nat.eqb_eq in E. congruence.
  - destruct (g_frames (gor_at w g)) as [|[t' o] fs] eqn:Ef; [|discriminate].
    injection H as <-. set (e := Entry _ _ _ _ _ _ _ _).
    constructor; simpl.
    + now rewrite !upd_length.
    + rewrite upd_length. apply heapinv_app; auto. simpl. tauto.
    + rewrite upd_length. intros s Hs. destruct (Nat.eq_dec g s) as [<-|N].
      * rewrite get_stack_upd_same by auto. simpl.
        eapply (attach_root (heap (w_mem w)) own g (get_stack (w_mem w) g) []); eauto; simpl; auto; try lia.
      * rewrite get_stack_upd_other by auto.
        apply base_frame with (heap (w_mem w)) own; [apply (i_base _ _ I); auto|intros; now apply owner_snoc_other|].
        intros p OP. pose proof (owner_lt _ _ _ OP). rewrite get_app_l by lia. apply agree_refl.
    + rewrite upd_length. intros s Hs. destruct (Nat.eq_dec g s) as [<-|N].
      * rewrite get_stack_upd_same, gor_upd_same by auto. simpl. rewrite Ef.
        apply (root_open _ _ _ (get_stack (w_mem w) g) e B); auto.
      * rewrite get_stack_upd_other, gor_upd_other by auto.
        apply open_frame with (heap (w_mem w)) own; [apply (i_open _ _ I); auto|intros; now apply owner_snoc_other|].
        intros p OP. pose proof (owner_lt _ _ _ OP). rewrite get_app_l by lia. auto.
Qed.

Lemma get_upd_heap h c f p : get (upd h c f) p = if (p =? c) && (p <? length h) then f (get h p) else get h p.
Proof.
  destruct (p =? c) eqn:E; simpl.
  - apply Nat.eqb_eq in E; subst. destruct (c <? length h) eqn:L.
    + apply Nat.ltb_lt in L. unfold get. now apply nth_upd_same.
    + apply Nat.ltb_ge in L. rewrite !get_out; auto. now rewrite upd_length.
  - apply Nat.eqb_neq in E. unfold get. apply nth_upd_other. auto.
Qed.

Lemma step_finish w own g se res pn w' : Inv w own -> step w (AFinish g se res pn) = Some w' -> Inv w' own.
Proof.
  intros I H. simpl in H. destruct (g_alive (gor_at w g)) eqn:AL; [|discriminate].
  destruct (g_frames (gor_at w g)) as [|[cur old] fs] eqn:Ef; [discriminate|]. injection H as <-.
  pose proof (alive_lt _ _ AL) as Lg. pose proof (i_len _ _ I) as IL.
  assert (Ls : g < length (stacks (w_mem w))) by lia.
  pose proof (i_base _ _ I g Ls) as B. pose proof (i_open _ _ I g Ls) as O. pose proof (i_heap _ _ I) as HI.
  pose proof (h_len _ _ _ HI) as EL. rewrite Ef in O.
  destruct (o_own _ _ _ _ _ O cur old ltac:(now left)) as [OC GC].
  pose proof (owner_lt _ _ _ OC) as LC.
  set (f := fun e => Entry (e_id e) (e_parent e) (e_fn e) (e_args e) true (Some (res, pn)) (e_go e) (e_children e)).
  assert (AG : forall p, agree (get (heap (w_mem w)) p) (get (upd (heap (w_mem w)) cur f) p)).
  { intros p. rewrite get_upd_heap. destruct ((p =? cur) && _); [unfold agree; simpl; auto|apply agree_refl]. }
  assert (OTH : forall p s, owner own p = Some s -> s <> g -> get (upd (heap (w_mem w)) cur f) p = get (heap (w_mem w)) p).
  { intros p s OP N. rewrite get_upd_heap. destruct (p =? cur) eqn:E; simpl; auto.
    apply Nat.eqb_eq in E. congruence. }
  unfold finish. fold f. constructor; simpl.
  - now rewrite !upd_length.
  - rewrite upd_length. constructor.
    + now rewrite upd_length.
    + rewrite upd_length. intros p c LP OP Ic. apply (h_clone _ _ _ HI p c); auto.
      unfold ch in *. destruct (AG p) as (_ & _ & _ & EQ). now rewrite EQ in Ic.
    + rewrite upd_length. intros p LP. rewrite get_upd_heap. destruct ((p =? cur) && _).
      * simpl. split; discriminate.
      * now apply (h_half _ _ _ HI).
    + apply (h_own _ _ _ HI).
  - rewrite upd_length. intros s Hs. destruct (Nat.eq_dec g s) as [<-|N].
    + rewrite get_stack_upd_same by auto. simpl. apply base_frame with (heap (w_mem w)) own; auto; tauto.
    + rewrite get_stack_upd_other by auto.
      apply base_frame with (heap (w_mem w)) own; auto; try tauto. now apply (i_base _ _ I).
  - rewrite upd_length. intros s Hs. destruct (Nat.eq_dec g s) as [<-|N].
    + rewrite get_stack_upd_same, gor_upd_same by auto. simpl. rewrite Ef. simpl.
      assert (OW : forall q oq, In (q, oq) ((cur, old) :: fs) -> owner own q = Some g)
        by (intros; eapply (o_own _ _ _ _ _ O); eauto).
      pose proof (chain_head_max _ _ _ _ _ _ _ _ B OW (o_chain _ _ _ _ _ O)) as HM.
      destruct (o_chain _ _ _ _ _ O) as [C1 C2].
      constructor; simpl.
      * apply chain_ext with (heap (w_mem w)); [exact C2|].
        intros q oq _. unfold ch. now destruct (AG q) as (_ & _ & _ & ->).
      * destruct fs as [|[t ot] fs]; destruct C1 as [-> _]; auto.
      * rewrite (o_depth _ _ _ _ _ O). simpl length. lia.
      * intros p o Ip. destruct (o_own _ _ _ _ _ O p o ltac:(now right)) as [X Y]. split; auto.
        now destruct (AG p) as (_ & _ & -> & _).
      * intros p OP GP. destruct (AG p) as (_ & _ & E & _). rewrite E in GP.
        pose proof (o_open _ _ _ _ _ O p OP GP) as X. simpl in X.
        rewrite get_upd_heap. destruct (p =? cur) eqn:Ep; simpl.
        -- apply Nat.eqb_eq in Ep; subst p. replace (cur <? length (heap (w_mem w))) with true
             by (symmetry; apply Nat.ltb_lt; lia). simpl. split; [discriminate|].
           intros Im. apply in_map_iff in Im as ([q oq] & Eq & Iq). simpl in Eq; subst q.
           apply HM in Iq. lia.
        -- apply Nat.eqb_neq in Ep. rewrite X. intuition congruence.
    + rewrite get_stack_upd_other, gor_upd_other by auto.
      apply open_frame with (heap (w_mem w)) own; [now apply (i_open _ _ I)|tauto|].
      intros p OP. apply OTH with s; auto.
Qed.

Lemma base_new h own n : HeapInv h own n -> Base h own n [] 0.
Proof.
  intros H. assert (X : forall p, owner own p = Some n -> False) by (intros p E; apply (h_own _ _ _ H) in E; lia).
  constructor; intros; try (exfalso; eauto; fail); simpl in *; try contradiction; try constructor.
  destruct l1; discriminate.
Qed.

Lemma open_new h own n : HeapInv h own n -> Open h own n new_stack [].
Proof.
  intros H. assert (X : forall p, owner own p = Some n -> False) by (intros p E; apply (h_own _ _ _ H) in E; lia).
  constructor; simpl; auto; try contradiction; intros; exfalso; eauto.
Qed.

Lemma heapinv_mono h own n : HeapInv h own n -> HeapInv h own (S n).
Proof. intros []. constructor; auto. intros p s X. apply h_own in X. lia. Qed.

Lemma get_stack_app m h s : s < length (stacks m) -> get_stack (Mem h (stacks m ++ [new_stack])) s = get_stack m s.
Proof. intros. unfold get_stack. simpl. now apply app_nth1. Qed.
Lemma get_stack_new m h : get_stack (Mem h (stacks m ++ [new_stack])) (length (stacks m)) = new_stack.
Proof. unfold get_stack. simpl. rewrite app_nth2, Nat.sub_diag; auto. Qed.

Lemma fork_plain w own : Inv w own ->
  Inv (World (Mem (heap (w_mem w)) (stacks (w_mem w) ++ [new_stack])) (w_gs w ++ [Gor [] true])) own.
Proof.
  intros I. pose proof (i_len _ _ I) as IL. pose proof (i_heap _ _ I) as HI. constructor; simpl.
  - rewrite !app_length. simpl. lia.
  - rewrite app_length. simpl. rewrite Nat.add_1_r. now apply heapinv_mono.
  - rewrite app_length. simpl. intros s Hs. destruct (Nat.eq_dec s (length (stacks (w_mem w)))) as [->|N].
    + rewrite get_stack_new. simpl. now apply base_new.
    + rewrite get_stack_app by lia. apply (i_base _ _ I). lia.
  - rewrite app_length. simpl. intros s Hs. destruct (Nat.eq_dec s (length (stacks (w_mem w)))) as [->|N].
    + rewrite get_stack_new. unfold gor_at. simpl. rewrite app_nth2 by lia. rewrite IL, Nat.sub_diag. simpl.
      now apply open_new.
    + rewrite get_stack_app by lia. unfold gor_at. simpl. rewrite app_nth1 by lia. apply (i_open _ _ I). lia.
Qed.

Lemma append_go_inv w own g c : Inv w own -> g < length (stacks (w_mem w)) ->
  exists own', Inv (World (append_go (w_mem w) g c) (w_gs w)) own'.
Proof.
  intros I Ls. unfold append_go. destruct (s_top (get_stack (w_mem w) g)) as [t|] eqn:Et.
  2:{ exists own. destruct w; exact I. }
  exists (own ++ [Some g]).
  pose proof (i_base _ _ I g Ls) as B. pose proof (i_open _ _ I g Ls) as O. pose proof (i_heap _ _ I) as HI.
  pose proof (h_len _ _ _ HI) as EL. pose proof (o_top _ _ _ _ _ O) as ET. rewrite Et in ET.
  destruct (g_frames (gor_at w g)) as [|[t' o] fs] eqn:Ef; [discriminate|]. injection ET as <-.
  set (e := Entry _ _ _ _ _ _ _ _). fold (attach (heap (w_mem w)) t e).
  assert (OT : owner own t = Some g) by (eapply (o_own _ _ _ _ _ O); now left).
  change (get_stack (Mem (attach (heap (w_mem w)) t e) (stacks (w_mem w)))) with (get_stack (w_mem w)).
  constructor; simpl.
  - apply (i_len _ _ I).
  - apply heapinv_attach; auto. simpl. tauto.
  - intros s Hs. destruct (Nat.eq_dec g s) as [<-|N].
    + eapply (attach_base (heap (w_mem w)) own g (get_stack (w_mem w) g) ((t, o) :: fs)); eauto; simpl; auto; try lia; discriminate.
    + apply base_frame with (heap (w_mem w)) own; [apply (i_base _ _ I); auto|intros; now apply owner_snoc_other|].
      intros p OP. pose proof (owner_lt _ _ _ OP). rewrite get_attach_old by lia.
      destruct (p =? t) eqn:E; [|apply agree_refl]. apply Nat.eqb_eq in E. congruence.
  - intros s Hs. destruct (Nat.eq_dec g s) as [<-|N].
    + change (gor_at (World _ (w_gs w)) g) with (gor_at w g). rewrite Ef.
      apply (attach_open _ _ _ (get_stack (w_mem w) g) ((t, o) :: fs) t o e B) with (call := false); auto. discriminate.
    + change (gor_at (World _ (w_gs w)) s) with (gor_at w s).
      apply open_frame with (heap (w_mem w)) own; [apply (i_open _ _ I); auto|intros; now apply owner_snoc_other|].
      intros p OP. pose proof (owner_lt _ _ _ OP). rewrite get_attach_old by lia.
      destruct (p =? t) eqn:E; auto. apply Nat.eqb_eq in E. congruence.
Qed.

Lemma step_fork w own g tr w' : Inv w own -> step w (AFork g tr) = Some w' -> exists own', Inv w' own'.
Proof.
  intros I H. simpl in H. destruct (g_alive (gor_at w g)) eqn:AL; [|discriminate]. injection H as <-.
  pose proof (alive_lt _ _ AL) as Lg. pose proof (i_len _ _ I) as IL.
  pose proof (fork_plain _ _ I) as I1. destruct tr; [|eauto].
  apply (append_go_inv _ _ g (length (w_gs w)) I1). simpl. rewrite app_length. lia.
Qed.

Lemma step_exit w own g w' : Inv w own -> step w (AExit g) = Some w' -> Inv w' own.
Proof.
  intros I H. simpl in H. destruct (g_alive (gor_at w g)) eqn:AL; [|discriminate].
  destruct (g_frames (gor_at w g)) as [|] eqn:Ef; [|discriminate]. injection H as <-.
  pose proof (alive_lt _ _ AL) as Lg. pose proof (i_len _ _ I) as IL.
  unfold set_end_if_zero. constructor; simpl.
  - now rewrite !upd_length.
  - rewrite upd_length. apply (i_heap _ _ I).
  - rewrite upd_length. intros s Hs. pose proof (i_base _ _ I s Hs) as B.
    destruct (Nat.eq_dec g s) as [<-|N]; [rewrite get_stack_upd_same|rewrite get_stack_upd_other]; auto.
  - rewrite upd_length. intros s Hs. pose proof (i_open _ _ I s Hs) as O.
    destruct (Nat.eq_dec g s) as [<-|N].
    + rewrite get_stack_upd_same, gor_upd_same by auto. simpl. rewrite Ef in O. destruct O. constructor; auto.
    + rewrite get_stack_upd_other, gor_upd_other; auto.
Qed.

(** ** Cloning *)
Lemma clone_cons k h p r :
  clone_entries (S k) h (p :: r) =
  (let q := length h in
   let h1 := h ++ [get h p] in
   let (h2, cs) := clone_entries k h1 (e_children (get h p)) in
   let h3 := upd h2 q (fun e => Entry (e_id e) (e_parent e) (e_fn e) (e_args e) (e_finished e) (e_res e) (e_go e) cs) in
   let (h4, qs) := clone_entries (S k) h3 r in (h4, q :: qs)).
Proof. reflexivity. Qed.
Lemma clone_nil k h : clone_entries (S k) h [] = (h, []).
Proof. reflexivity. Qed.

Definition set_children (cs : list ptr) (e : entry) : entry :=
  Entry (e_id e) (e_parent e) (e_fn e) (e_args e) (e_finished e) (e_res e) (e_go e) cs.

(** Shape of the result: only fresh entries, closed under children. *)
Lemma clone_shape k : forall h ps h' qs, clone_entries k h ps = (h', qs) ->
  (exists ext, h' = h ++ ext) /\
  (forall q, In q qs -> length h <= q < length h') /\
  (forall p c, length h <= p < length h' -> In c (ch h' p) -> p < c < length h') /\
  ((forall p, p < length h -> (e_finished (get h p) = false <-> e_res (get h p) = None)) ->
   (forall p, p < length h' -> (e_finished (get h' p) = false <-> e_res (get h' p) = None))).
Proof.
  induction k as [|k IHk]; intros h ps h' qs H.
  - simpl in H. injection H as <- <-. repeat split; simpl; try contradiction; try lia; auto.
    + exists []. now rewrite app_nil_r.
    + now apply H.
    + now apply H.
  - revert h h' qs H. induction ps as [|p r IHr]; intros h h' qs H.
    + rewrite clone_nil in H. injection H as <- <-. repeat split; simpl; try contradiction; try lia; auto.
      * exists []. now rewrite app_nil_r.
      * now apply H.
      * now apply H.
    + rewrite clone_cons in H. cbv zeta in H.
      destruct (clone_entries k (h ++ [get h p]) (e_children (get h p))) as [h2 cs] eqn:E2.
      match type of H with context [upd h2 (length h) ?f] => change f with (set_children cs) in H end.
      destruct (clone_entries (S k) (upd h2 (length h) (set_children cs)) r) as [h4 qs'] eqn:E4.
      injection H as <- <-.
      apply IHk in E2 as ((x2 & X2) & Q2 & C2 & F2). apply IHr in E4 as ((x4 & X4) & Q4 & C4 & F4).
      assert (L2 : length h2 = S (length h) + length x2) by (rewrite X2, !app_length; simpl; lia).
      rewrite upd_length in *.
      assert (U : upd h2 (length h) (set_children cs) = h ++ set_children cs (get h p) :: x2).
      { rewrite X2, <- app_assoc. simpl. apply upd_app_mid. }
      rewrite U in *. rewrite <- app_assoc in X4. simpl in X4.
      assert (L4 : length h4 = S (length h) + length x2 + length x4).
      { rewrite X4. rewrite app_length. simpl. rewrite app_length. lia. }
      assert (G4 : forall z, z < length h2 -> get h4 z = get (h ++ set_children cs (get h p) :: x2) z).
      { intros z Lz. rewrite X4. change (h ++ set_children cs (get h p) :: x2 ++ x4)
          with (h ++ (set_children cs (get h p) :: x2) ++ x4). rewrite app_assoc.
        apply get_app_l. rewrite app_length. simpl. lia. }
      assert (G3 : forall z, length h < z < length h2 -> get (h ++ set_children cs (get h p) :: x2) z = get h2 z).
      { intros z Lz. rewrite X2, <- app_assoc. simpl. unfold get. rewrite !app_nth2 by lia.
        destruct (z - length h) eqn:Ez; [lia|reflexivity]. }
      split; [|split; [|split]].
      * exists (set_children cs (get h p) :: x2 ++ x4). exact X4.
      * intros q [<-|I]; [lia|]. apply Q4 in I. lia.
      * intros z c Lz Ic. unfold ch in Ic.
        destruct (Nat.lt_ge_cases z (length h2)) as [Lz2|Gz2].
        -- rewrite G4 in Ic by auto. destruct (Nat.eq_dec z (length h)) as [->|N].
           ++ rewrite get_app_mid in Ic. simpl in Ic. apply Q2 in Ic. rewrite app_length in Ic; simpl in Ic. lia.
           ++ rewrite G3 in Ic by lia. assert (X : z < c < length h2); [|lia].
              apply C2; auto. rewrite app_length; simpl. lia.
        -- apply C4; auto. lia.
      * intros HF z Lz. destruct (Nat.lt_ge_cases z (length h2)) as [Lz2|Gz2].
        -- rewrite G4 by auto. destruct (Nat.eq_dec z (length h)) as [->|N].
           ++ rewrite get_app_mid. simpl. destruct (Nat.lt_ge_cases p (length h)) as [Lp|Gp]; [now apply HF|].
              rewrite get_out by auto. simpl. tauto.
           ++ destruct (Nat.lt_ge_cases z (length h)).
              ** rewrite get_app_l by auto. now apply HF.
              ** rewrite G3 by lia. apply F2; [|lia]. intros y Ly. rewrite app_length in Ly; simpl in Ly.
                 destruct (Nat.eq_dec y (length h)) as [->|Ny].
                 --- rewrite get_app_mid. destruct (Nat.lt_ge_cases p (length h)) as [Lp|Gp]; [now apply HF|].
                     rewrite get_out by auto. simpl. tauto.
                 --- rewrite get_app_l by lia. apply HF. lia.
        -- apply F4; auto. intros y Ly. destruct (Nat.lt_ge_cases y (length h)).
           ++ rewrite get_app_l by auto. now apply HF.
           ++ rewrite <- G4 by lia.
              destruct (Nat.eq_dec y (length h)) as [->|Ny].
              ** rewrite G4 by lia. rewrite get_app_mid. simpl.
                 destruct (Nat.lt_ge_cases p (length h)) as [Lp|Gp]; [now apply HF|].
                 rewrite get_out by auto. simpl. tauto.
              ** rewrite G4, G3 by lia. apply F2; [|lia]. intros u Lu. rewrite app_length in Lu; simpl in Lu.
                 destruct (Nat.eq_dec u (length h)) as [->|Nu].
                 --- rewrite get_app_mid. destruct (Nat.lt_ge_cases p (length h)) as [Lp|Gp]; [now apply HF|].
                     rewrite get_out by auto. simpl. tauto.
                 --- rewrite get_app_l by lia. apply HF. lia.
Qed.

Lemma snapshot_inv w own s m' r : Inv w own -> snapshot (w_mem w) s = (m', r) ->
  Inv (World m' (w_gs w)) (own ++ repeat None (length (heap m') - length (heap (w_mem w)))) /\
  (exists ext, heap m' = heap (w_mem w) ++ ext) /\ stacks m' = stacks (w_mem w) /\
  fst r = s_end (get_stack (w_mem w) s) /\
  (forall q, In q (snd r) -> length (heap (w_mem w)) <= q < length (heap m')).
Proof.
  intros I H. unfold snapshot in H.
  destruct (clone_entries _ _ _) as [h' qs] eqn:E. injection H as <- <-. simpl.
  apply clone_shape in E as ((ext & X) & Q & C & F).
  pose proof (i_heap _ _ I) as HI. pose proof (h_len _ _ _ HI) as EL.
  split; [|repeat split; eauto; apply Q; auto].
  assert (L : length h' = length (heap (w_mem w)) + length ext) by (rewrite X, app_length; lia).
  set (rep := repeat None _).
  assert (LR : length rep = length ext) by (unfold rep; rewrite repeat_length; lia).
  assert (OO : forall p, p < length (heap (w_mem w)) -> owner (own ++ rep) p = owner own p)
    by (intros; apply owner_app_l; lia).
  assert (OE : forall p s, owner (own ++ rep) p = Some s <-> owner own p = Some s).
  { intros p s0. destruct (Nat.lt_ge_cases p (length own)) as [Lp|Gp].
    - unfold owner. rewrite app_nth1 by auto. tauto.
    - unfold owner. rewrite app_nth2 by auto. rewrite (nth_overflow own) by auto.
      split; [|discriminate]. intros Y. exfalso.
      assert (Z : In (Some s0) rep \/ nth (p - length own) rep None = None).
      { destruct (nth_in_or_default (p - length own) rep None) as [Z|Z]; [left; now rewrite Y in Z|auto]. }
      destruct Z as [Z|Z]; [apply repeat_spec in Z; discriminate|congruence]. }
  assert (ON : forall p, length own <= p -> owner (own ++ rep) p = None).
  { intros p Lp. destruct (owner (own ++ rep) p) eqn:Y; auto. apply OE in Y. apply owner_lt in Y. lia. }
  assert (GO : forall p s, owner own p = Some s -> get h' p = get (heap (w_mem w)) p).
  { intros p s0 OP. apply owner_lt in OP. rewrite X. apply get_app_l. lia. }
  constructor; simpl.
  - apply (i_len _ _ I).
  - constructor.
    + rewrite app_length, LR. lia.
    + intros p c Lp OP Ic. destruct (Nat.lt_ge_cases p (length (heap (w_mem w)))) as [Lo|Go].
      * rewrite OO in OP by auto. unfold ch in Ic. rewrite X, get_app_l in Ic by auto.
        destruct (h_clone _ _ _ HI p c Lo OP Ic) as (A & B & D). repeat split; auto; [lia|].
        rewrite OO; auto.
      * destruct (C p c ltac:(lia) Ic). repeat split; auto. apply ON. lia.
    + intros p Lp. apply F; auto. apply (h_half _ _ _ HI).
    + intros p s0 OP. apply OE in OP. now apply (h_own _ _ _ HI) in OP.
  - intros s0 Hs. apply base_frame with (heap (w_mem w)) own; [now apply (i_base _ _ I)|intros ?; apply OE|].
    intros p OP. rewrite (GO _ _ OP). apply agree_refl.
  - intros s0 Hs. apply open_frame with (heap (w_mem w)) own; [now apply (i_open _ _ I)|intros ?; apply OE|].
    intros p OP. apply (GO _ _ OP).
Qed.

Lemma step_inv w own a w' : Inv w own -> step w a = Some w' -> exists own', Inv w' own'.
Proof.
  intros I H. destruct a.
  - eexists. eapply step_push; eauto.
  - eexists. eapply step_finish; eauto.
  - eapply step_fork; eauto.
  - eexists. eapply step_exit; eauto.
  - simpl in H. injection H as <-. destruct (snapshot (w_mem w) s) as [m' r] eqn:E.
    eexists. eapply snapshot_inv; eauto.
Qed.

Lemma run_inv acts : forall w own w', Inv w own -> run acts w = Some w' -> exists own', Inv w' own'.
Proof.
  induction acts as [|a r IH]; simpl; intros w own w' I H.
  - injection H as <-. eauto.
  - destruct (step w a) as [w1|] eqn:E; [|discriminate].
    destruct (step_inv _ _ _ _ I E) as [own1 I1]. eauto.
Qed.

Lemma init_inv : Inv init_world [].
Proof.
  constructor; simpl; auto.
  - constructor; simpl; auto; intros; try lia. unfold owner in H. destruct p; discriminate.
  - intros [|s] H; [|lia]. constructor; simpl; intros; try contradiction; try constructor; unfold owner in *;
      try (destruct p; discriminate). destruct l1; discriminate.
  - intros [|s] H; [|lia]. constructor; simpl; auto; try contradiction; intros p HH; unfold owner in HH; destruct p; discriminate.
Qed.

(** ** From the invariant to the specification (C12) *)
Lemma reach_owner h own s roots maxid p : Base h own s roots maxid -> reach h roots p -> owner own p = Some s.
Proof.
  intros B R. induction R as [p I|p c R IH I]; [now apply (b_root _ _ _ _ _ B)|].
  eapply (b_child _ _ _ _ _ B); eauto.
Qed.

Lemma last_opt_snoc l x : last_opt (l ++ [x]) = Some x.
Proof. induction l as [|y l IH]; auto. simpl. destruct (l ++ [x]) eqn:E; auto. destruct l; discriminate. Qed.

Lemma path_from_app h c l1 x l2 : path_from h c (l1 ++ [x]) -> path_from h (ch h x) l2 ->
  path_from h c (l1 ++ x :: l2).
Proof.
  revert c. induction l1 as [|y l1 IH]; simpl; intros c.
  - intros [I _] P. auto.
  - intros [I P] Q. split; auto.
Qed.

Lemma chain_path h roots fs : chain h roots fs -> path_from h roots (rev (map fst fs)).
Proof.
  induction fs as [|[p o] fs IH]; simpl; auto. intros [C R]. specialize (IH R).
  destruct fs as [|[t ot] fs]; simpl in *.
  - destruct C as [_ L]. apply last_is_in in L. auto.
  - destruct C as [_ L]. rewrite <- app_assoc. simpl. apply path_from_app; auto.
    simpl. split; auto. now apply last_is_in.
Qed.

Lemma inv_well_formed w own s : Inv w own -> s < length (stacks (w_mem w)) -> well_formed (w_mem w) s.
Proof.
  intros I Ls. pose proof (i_base _ _ I s Ls) as B. pose proof (i_open _ _ I s Ls) as O.
  assert (RO : forall p, entry_of (w_mem w) s p -> owner own p = Some s) by (intros p; now apply reach_owner with (1 := B)).
  constructor.
  - apply sorted_nodup, (b_root_sorted _ _ _ _ _ B).
  - intros p R. apply sorted_nodup, (b_sorted _ _ _ _ _ B); auto.
  - intros p q c Rp Rq. apply (b_uniq _ _ _ _ _ B); auto.
  - intros p c R. apply (b_root_np _ _ _ _ _ B); auto.
  - intros p q Rp Rq Gp Gq E. destruct (Nat.lt_trichotomy p q) as [L|[L|L]]; auto; exfalso.
    + pose proof (b_ids _ _ _ _ _ B _ _ L (RO _ Rp) (RO _ Rq) Gp Gq). lia.
    + pose proof (b_ids _ _ _ _ _ B _ _ L (RO _ Rq) (RO _ Rp) Gq Gp). lia.
  - intros p c Rp Gp Gc Ic. destruct (b_child _ _ _ _ _ B _ _ (RO _ Rp) Ic) as [L OC].
    apply (b_ids _ _ _ _ _ B); auto.
  - intros p l1 l2 l3 c1 c2 d Rp E D Gd Gc.
    assert (L : d < c2) by exact (b_right _ _ _ _ _ B _ _ _ _ _ _ _ (RO _ Rp) E D).
    assert (O1 : owner own c1 = Some s).
    { eapply (b_child _ _ _ _ _ B); [exact (RO _ Rp)|]. unfold ch. rewrite E. apply in_or_app; right; now left. }
    assert (O2 : owner own c2 = Some s).
    { eapply (b_child _ _ _ _ _ B); [exact (RO _ Rp)|]. unfold ch. rewrite E. apply in_or_app; right; right.
      apply in_or_app; right; now left. }
    apply (b_ids _ _ _ _ _ B); auto. exact (desc_owner _ _ _ _ _ _ _ B O1 D).
  - intros l1 l2 l3 c1 c2 d E D Gd Gc.
    assert (L : d < c2) by exact (b_right_roots _ _ _ _ _ B _ _ _ _ _ _ E D).
    assert (O1 : owner own c1 = Some s).
    { apply (b_root _ _ _ _ _ B). rewrite E. apply in_or_app; right; now left. }
    assert (O2 : owner own c2 = Some s).
    { apply (b_root _ _ _ _ _ B). rewrite E. apply in_or_app; right; right. apply in_or_app; right; now left. }
    apply (b_ids _ _ _ _ _ B); auto. exact (desc_owner _ _ _ _ _ _ _ B O1 D).
  - intros p c Rp Ic Gc. apply (b_parent _ _ _ _ _ B); auto.
  - apply (b_root_parent _ _ _ _ _ B).
  - exists (rev (map fst (g_frames (gor_at w s)))). split; [apply chain_path, (o_chain _ _ _ _ _ O)|].
    split.
    { rewrite (o_top _ _ _ _ _ O). destruct (g_frames (gor_at w s)) as [|[p o] fs]; auto.
      simpl. now rewrite last_opt_snoc. }
    split. { rewrite rev_length, map_length. apply (o_depth _ _ _ _ _ O). }
    split.
    { intros p Ip. apply in_rev in Ip. apply in_map_iff in Ip as ([q o] & <- & Iq). simpl.
      eapply (o_own _ _ _ _ _ O); eauto. }
    intros p Rp Gp. rewrite <- in_rev. apply (o_open _ _ _ _ _ O); auto.
Qed.

Theorem reachable_well_formed acts w s : run acts init_world = Some w ->
  s < length (stacks (w_mem w)) -> well_formed (w_mem w) s.
Proof.
  intros H L. destruct (run_inv _ _ _ _ init_inv H) as [own I]. eapply inv_well_formed; eauto.
Qed.
