(** Proofs about M_Stack, continued: snapshots and exports, C13. *)
From Coq Require Import List Arith Bool ZArith Lia Sorted.
From Verif Require Import M_Stack S_Stack P_Stack P_Stack2.
Import ListNotations.

Section VInd.
  Variable P : vtree -> Prop.
  Hypothesis H : forall fn args fin res go vs, Forall P vs -> P (V fn args fin res go vs).
  Fixpoint vtree_ind' (v : vtree) : P v :=
    match v with
    | V fn args fin res go vs =>
        H fn args fin res go vs
          ((fix all (l : list vtree) : Forall P l :=
              match l with [] => Forall_nil P | x :: r => Forall_cons x (vtree_ind' x) (all r) end) vs)
    end.
End VInd.

Fixpoint vheight (v : vtree) : nat :=
  match v with V _ _ _ _ _ vs => S (fold_right max 0 (map vheight vs)) end.

Lemma vheight_children vs n : fold_right max 0 (map vheight vs) <= n <-> Forall (fun v => vheight v <= n) vs.
Proof.
  induction vs as [|v vs IH]; simpl.
  - split; auto. lia.
  - split; intros X.
    + constructor; [lia|]. apply IH. lia.
    + inversion X; subst. apply IH in H2. lia.
Qed.

Lemma repr_inv h p v : repr h p v -> exists vs, p < length h /\ Forall2 (repr h) (ch h p) vs /\
  v = V (e_fn (get h p)) (e_args (get h p)) (e_finished (get h p)) (e_res (get h p)) (e_go (get h p)) vs.
Proof. intros []. exists vs. auto. Qed.

(** A tree only depends on the entries of a region closed under children. *)
Lemma repr_frame h h' (Q : ptr -> Prop) :
  (forall q, Q q -> q < length h -> q < length h' /\ get h' q = get h q) ->
  (forall q c, Q q -> q < length h -> In c (ch h q) -> Q c) ->
  forall v p, Q p -> repr h p v -> repr h' p v.
Proof.
  intros A C. induction v as [fn args fin res go vs IH] using vtree_ind'. intros p Qp R.
  apply repr_inv in R as (vs' & L & F & E). injection E as -> -> -> -> -> ->.
  destruct (A p Qp L) as [L' G]. rewrite <- !G. constructor; auto.
  rewrite G. change (e_children (get h p)) with (ch h p).
  assert (QC : Forall Q (ch h p)) by (apply Forall_forall; intros c I; eapply C; eauto).
  clear -F IH QC. induction F as [|c v cs vs R F IHF]; [constructor|].
  inversion IH; subst. inversion QC; subst. constructor; auto.
Qed.

Lemma repr_app h e p v : repr h p v -> repr (h ++ e) p v.
Proof.
  revert p. induction v as [fn args fin res go vs IH] using vtree_ind'. intros p R.
  apply repr_inv in R as (vs' & L & F & E). injection E as -> -> -> -> -> ->.
  rewrite <- !(get_app_l h e p L). constructor; [rewrite app_length; lia|].
  rewrite (get_app_l h e p L). change (e_children (get h p)) with (ch h p).
  clear -F IH. induction F as [|c v cs vs R F IHF]; [constructor|]. inversion IH; subst. constructor; auto.
Qed.

Lemma repr_app_all h e ps vs : Forall2 (repr h) ps vs -> Forall2 (repr (h ++ e)) ps vs.
Proof. induction 1; constructor; auto. now apply repr_app. Qed.

Lemma repr_det h v : forall p v', repr h p v -> repr h p v' -> v = v'.
Proof.
  induction v as [fn args fin res go vs IH] using vtree_ind'. intros p v' R R'.
  apply repr_inv in R as (us & L & F & E). injection E as -> -> -> -> -> ->.
  apply repr_inv in R' as (us' & _ & F' & ->). f_equal.
  clear L. revert us' F'. induction F as [|c v cs vs R F IHF]; intros us' F'; inversion F'; subst; auto.
  inversion IH; subst. f_equal; eauto.
Qed.

(** Acyclic heaps represent trees. *)
Lemma repr_exists h : (forall p c, p < length h -> In c (ch h p) -> p < c < length h) ->
  forall n p, p < length h -> length h - p <= n -> exists v, repr h p v /\ vheight v <= n.
Proof.
  intros C. induction n as [|n IH]; intros p L Ln; [lia|].
  assert (X : exists vs, Forall2 (repr h) (ch h p) vs /\ Forall (fun v => vheight v <= n) vs).
  { assert (Y : forall c, In c (ch h p) -> exists v, repr h c v /\ vheight v <= n).
    { intros c I. destruct (C p c L I). apply IH; lia. }
    revert Y. generalize (ch h p) as cs. induction cs as [|c cs IHc]; intros Y.
    - exists []. split; constructor.
    - destruct (Y c ltac:(now left)) as (v & Rv & Hv). destruct IHc as (vs & F & Hs); [intros; apply Y; now right|].
      exists (v :: vs). split; constructor; auto. }
  destruct X as (vs & F & Hs).
  eexists. split; [constructor; eauto|]. simpl. apply le_n_S. now apply vheight_children.
Qed.

(** Cloning copies the trees. *)
Lemma clone_repr k : forall h ps vs h' qs, clone_entries k h ps = (h', qs) ->
  Forall2 (repr h) ps vs -> Forall (fun v => vheight v <= k) vs -> Forall2 (repr h') qs vs.
Proof.
  induction k as [|k IHk]; intros h ps vs h' qs H F VH.
  - assert (E : vs = []). { inversion VH; auto. destruct x; simpl in *; lia. }
    subst. simpl in H. injection H as <- <-. inversion F; subst. constructor.
  - revert h vs h' qs H F VH. induction ps as [|p r IHr]; intros h vs h' qs H F VH.
    + rewrite clone_nil in H. injection H as <- <-. inversion F; constructor.
    + inversion F as [|? v ? vs' R F']; subst. inversion VH; subst.
      rewrite clone_cons in H. cbv zeta in H.
      destruct (clone_entries k (h ++ [get h p]) (e_children (get h p))) as [h2 cs] eqn:E2.
      match type of H with context [upd h2 (length h) ?f] => change f with (set_children cs) in H end.
      destruct (clone_entries (S k) (upd h2 (length h) (set_children cs)) r) as [h4 qs'] eqn:E4.
      injection H as <- <-.
      apply repr_inv in R as (us & Lp & Fu & ->).
      assert (Hu : Forall (fun v => vheight v <= k) us) by (apply vheight_children; simpl in H2; lia).
      pose proof (clone_shape _ _ _ _ _ E2) as ((x2 & X2) & Q2 & C2 & _).
      pose proof (clone_shape _ _ _ _ _ E4) as ((x4 & X4) & _ & _ & _).
      pose proof (IHk _ _ _ _ _ E2 (repr_app_all _ _ _ _ Fu) Hu) as R2.
      assert (U : upd h2 (length h) (set_children cs) = h ++ set_children cs (get h p) :: x2).
      { rewrite X2, <- app_assoc. simpl. apply upd_app_mid. }
      assert (L2 : length h2 = S (length h + length x2)) by (rewrite X2, !app_length; simpl; lia).
      set (h3 := upd h2 (length h) (set_children cs)) in *.
      assert (R3 : Forall2 (repr h3) cs us).
      { assert (QC : Forall (fun z => length h < z < length h2) cs).
        { apply Forall_forall. intros z Iz. apply Q2 in Iz. rewrite app_length in Iz; simpl in Iz. lia. }
        assert (G3 : forall q, length h < q -> get h3 q = get h2 q)
          by (intros q Hq; unfold get, h3; apply nth_upd_other; lia).
        assert (L3 : length h3 = length h2) by apply upd_length.
        clear -R2 QC C2 L2 G3 L3. clearbody h3. induction R2 as [|c v cs' us' R R2 IH]; [constructor|].
        inversion QC; subst. constructor; auto.
        apply repr_frame with (h := h2) (Q := fun z => length h < z < length h2); [| |assumption|assumption].
        - intros q Qq Lq. rewrite L3. split; auto. apply G3. lia.
        - intros q c0 Qq Lq Ic. apply C2 in Ic; [|rewrite app_length; simpl; lia]. lia. }
      constructor.
      * rewrite X4. apply repr_app.
        assert (G : get h3 (length h) = set_children cs (get h p)) by (rewrite U; apply get_app_mid).
        assert (X : repr h3 (length h) (V (e_fn (get h3 (length h))) (e_args (get h3 (length h)))
                     (e_finished (get h3 (length h))) (e_res (get h3 (length h))) (e_go (get h3 (length h))) us)).
        { constructor; [unfold h3; rewrite upd_length; lia|]. rewrite G. exact R3. }
        rewrite G in X. exact X.
      * eapply IHr; eauto. rewrite U. now apply repr_app_all.
Qed.

(** Each step keeps the entries of earlier snapshots as they are. *)
Definition keeps (w : world) (own : list (option sid)) (w' : world) (own' : list (option sid)) : Prop :=
  forall p, p < length (heap (w_mem w)) -> owner own p = None ->
    p < length (heap (w_mem w')) /\ owner own' p = None /\ get (heap (w_mem w')) p = get (heap (w_mem w)) p.

Lemma keeps_refl w own : keeps w own w own. Proof. intros p L O. auto. Qed.
Lemma keeps_trans w o w1 o1 w2 o2 : keeps w o w1 o1 -> keeps w1 o1 w2 o2 -> keeps w o w2 o2.
Proof.
  intros A B p L O. destruct (A p L O) as (L1 & O1 & G1). destruct (B p L1 O1) as (L2 & O2 & G2).
  repeat split; auto. congruence.
Qed.

Lemma append_go_keeps w own g c : Inv w own -> g < length (stacks (w_mem w)) ->
  exists own', Inv (World (append_go (w_mem w) g c) (w_gs w)) own' /\
    keeps w own (World (append_go (w_mem w) g c) (w_gs w)) own'.
Proof.
  intros I Ls. destruct (append_go_inv w own g c I Ls) as [own' I'].
  unfold append_go in *. destruct (s_top (get_stack (w_mem w) g)) as [t|] eqn:Et.
  2:{ exists own. split; [destruct w; exact I|]. intros p L O. auto. }
  exists (own ++ [Some g]).
  pose proof (i_open _ _ I g Ls) as O. pose proof (h_len _ _ _ (i_heap _ _ I)) as EL.
  pose proof (o_top _ _ _ _ _ O) as ET. rewrite Et in ET.
  assert (OT : owner own t = Some g).
  { destruct (g_frames (gor_at w g)) as [|[t' o] fs] eqn:Ef; [discriminate|]. injection ET as <-.
    eapply (o_own _ _ _ _ _ O). now left. }
  split.
  - (* re-derive with the explicit owner *)
    clear own' I'.
    pose proof (i_base _ _ I g Ls) as B. pose proof (i_heap _ _ I) as HI.
    destruct (g_frames (gor_at w g)) as [|[t' o] fs] eqn:Ef; [discriminate|]. injection ET as <-.
    set (e := Entry _ _ _ _ _ _ _ _). fold (attach (heap (w_mem w)) t e).
    constructor; simpl.
    + apply (i_len _ _ I).
    + apply heapinv_attach; auto. simpl. tauto.
    + intros s Hs. change (get_stack (Mem (attach (heap (w_mem w)) t e) (stacks (w_mem w))) s) with (get_stack (w_mem w) s).
      destruct (Nat.eq_dec g s) as [<-|N].
      * eapply (attach_base (heap (w_mem w)) own g (get_stack (w_mem w) g) ((t, o) :: fs)); eauto; simpl; auto; try lia; discriminate.
      * apply base_frame with (heap (w_mem w)) own; [apply (i_base _ _ I); auto|intros; now apply owner_snoc_other|].
        intros p OP. pose proof (owner_lt _ _ _ OP). rewrite get_attach_old by lia.
        destruct (p =? t) eqn:E; [|apply agree_refl]. apply Nat.eqb_eq in E. congruence.
    + intros s Hs. change (get_stack (Mem (attach (heap (w_mem w)) t e) (stacks (w_mem w))) s) with (get_stack (w_mem w) s).
      change (gor_at (World _ (w_gs w)) s) with (gor_at w s).
      destruct (Nat.eq_dec g s) as [<-|N].
      * rewrite Ef.
        apply (attach_open _ _ _ (get_stack (w_mem w) g) ((t, o) :: fs) t o e B) with (call := false); auto. discriminate.
      * apply open_frame with (heap (w_mem w)) own; [apply (i_open _ _ I); auto|intros; now apply owner_snoc_other|].
        intros p OP. pose proof (owner_lt _ _ _ OP). rewrite get_attach_old by lia.
        destruct (p =? t) eqn:E; auto. apply Nat.eqb_eq in E. congruence.
  - intros p L OP. simpl. rewrite app_length, upd_length. simpl. split; [lia|].
    rewrite owner_app_l by lia. split; auto.
    fold (attach (heap (w_mem w)) t (Entry 0 0 0 0 false None (Some c) [])).
    rewrite get_attach_old by auto. destruct (p =? t) eqn:E; auto. apply Nat.eqb_eq in E. congruence.
Qed.

Lemma step_keeps w own a w' : Inv w own -> step w a = Some w' -> exists own', Inv w' own' /\ keeps w own w' own'.
Proof.
  intros I H. pose proof (h_len _ _ _ (i_heap _ _ I)) as EL. pose proof (i_len _ _ I) as IL. destruct a.
  - exists (own ++ [Some g]). split; [eapply step_push; eauto|].
    simpl in H. destruct (g_alive (gor_at w g)) eqn:AL; [|discriminate].
    pose proof (alive_lt _ _ AL) as Lg. assert (Ls : g < length (stacks (w_mem w))) by lia.
    pose proof (i_open _ _ I g Ls) as O. pose proof (o_top _ _ _ _ _ O) as ET.
    unfold push_new in H. intros p L OP. destruct (s_top (get_stack (w_mem w) g)) as [t|] eqn:Et.
    + injection H as <-. simpl. set (e := Entry _ _ _ _ _ _ _ _). fold (attach (heap (w_mem w)) t e).
      assert (OT : owner own t = Some g).
      { destruct (g_frames (gor_at w g)) as [|[t' o] fs] eqn:Ef; [discriminate|]. injection ET as <-.
        eapply (o_own _ _ _ _ _ O). now left. }
      rewrite attach_length, owner_app_l by lia. repeat split; auto.
      rewrite get_attach_old by auto. destruct (p =? t) eqn:E; auto. apply Nat.eqb_eq in E. congruence.
    + injection H as <-. simpl. rewrite app_length. simpl. rewrite owner_app_l by lia. repeat split; auto; [lia|].
      now apply get_app_l.
  - exists own. split; [eapply step_finish; eauto|].
    simpl in H. destruct (g_alive (gor_at w g)) eqn:AL; [|discriminate].
    destruct (g_frames (gor_at w g)) as [|[cur old] fs] eqn:Ef; [discriminate|]. injection H as <-.
    pose proof (alive_lt _ _ AL) as Lg. assert (Ls : g < length (stacks (w_mem w))) by lia.
    pose proof (i_open _ _ I g Ls) as O. rewrite Ef in O.
    destruct (o_own _ _ _ _ _ O cur old ltac:(now left)) as [OC _].
    intros p L OP. simpl. rewrite upd_length. repeat split; auto. rewrite get_upd_heap.
    destruct (p =? cur) eqn:E; auto. apply Nat.eqb_eq in E. congruence.
  - simpl in H. destruct (g_alive (gor_at w g)) eqn:AL; [|discriminate]. injection H as <-.
    pose proof (alive_lt _ _ AL) as Lg. pose proof (fork_plain _ _ I) as I1. destruct traced.
    + apply (append_go_keeps _ _ g (length (w_gs w))) in I1; [|simpl; rewrite app_length; lia].
      destruct I1 as (own' & I' & K). exists own'. split; [exact I'|]. exact K.
    + exists own. split; [exact I1|]. intros p L O. auto.
  - exists own. split; [eapply step_exit; eauto|].
    simpl in H. destruct (g_alive (gor_at w g)) eqn:AL; [|discriminate].
    destruct (g_frames (gor_at w g)) eqn:Ef; [|discriminate]. injection H as <-. intros p L O. auto.
  - simpl in H. injection H as <-. destruct (snapshot (w_mem w) s) as [m' r] eqn:E.
    apply (snapshot_inv _ _ _ _ _ I) in E as (I' & (ext & X) & _). eexists. split; [exact I'|].
    intros p L O. simpl. rewrite X, app_length. split; [lia|]. split.
    + rewrite owner_app_l by lia. auto.
    + now apply get_app_l.
Qed.

Lemma run_keeps acts : forall w own w', Inv w own -> run acts w = Some w' -> exists own', Inv w' own' /\ keeps w own w' own'.
Proof.
  induction acts as [|a r IH]; simpl; intros w own w' I H.
  - injection H as <-. exists own. split; auto. apply keeps_refl.
  - destruct (step w a) as [w1|] eqn:E; [|discriminate].
    destruct (step_keeps _ _ _ _ I E) as (own1 & I1 & K1). destruct (IH _ _ _ I1 H) as (own2 & I2 & K2).
    exists own2. split; auto. eapply keeps_trans; eauto.
Qed.

Lemma run_app a b w : run (a ++ b) w = match run a w with None => None | Some w' => run b w' end.
Proof. revert w. induction a as [|x a IH]; simpl; intros w; auto. destruct (step w x); auto. Qed.

Lemma run_seq a b w w1 w2 : run a w = Some w1 -> run b w1 = Some w2 -> run (a ++ b) w = Some w2.
Proof. intros A B. now rewrite run_app, A. Qed.

Ltac rseq := repeat (first [eassumption | eapply run_seq; [eassumption|]]).

Lemma inv_closed w own p c : Inv w own -> p < length (heap (w_mem w)) -> In c (ch (heap (w_mem w)) p) ->
  p < c < length (heap (w_mem w)).
Proof.
  intros I L Ic. pose proof (i_heap _ _ I) as HI. pose proof (h_len _ _ _ HI) as EL.
  destruct (owner own p) as [s|] eqn:O.
  - pose proof (h_own _ _ _ HI _ _ O) as Ls. destruct (b_child _ _ _ _ _ (i_base _ _ I s Ls) _ _ O Ic) as [A B].
    apply owner_lt in B. lia.
  - destruct (h_clone _ _ _ HI _ _ L O Ic) as (A & B & _). lia.
Qed.

Definition clones (w : world) (own : list (option sid)) (ps : list ptr) : Prop :=
  Forall (fun p => p < length (heap (w_mem w)) /\ owner own p = None) ps.

Lemma clones_keep w own w' own' ps vs : Inv w own -> keeps w own w' own' -> clones w own ps ->
  Forall2 (repr (heap (w_mem w))) ps vs ->
  clones w' own' ps /\ Forall2 (repr (heap (w_mem w'))) ps vs.
Proof.
  intros I K C F. split.
  - unfold clones in *. rewrite Forall_forall in *. intros p Ip. destruct (C p Ip) as [L O].
    destruct (K p L O) as (A & B & _). auto.
  - induction F as [|p v ps vs R F IH]; [constructor|]. inversion C as [|? ? [L O] C']; subst. constructor; auto.
    apply repr_frame with (h := heap (w_mem w)) (Q := fun q => owner own q = None); [| |assumption|assumption].
    + intros q Oq Lq. destruct (K q Lq Oq) as (A & _ & B). auto.
    + intros q c Oq Lq Ic. apply (h_clone _ _ _ (i_heap _ _ I) q c Lq Oq Ic).
Qed.

Lemma snapshot_repr w own s m' r : Inv w own -> s < length (stacks (w_mem w)) -> snapshot (w_mem w) s = (m', r) ->
  exists vs, trees_of (w_mem w) s vs /\ Forall2 (repr (heap m')) (snd r) vs.
Proof.
  intros I Ls H. pose proof (i_base _ _ I s Ls) as B. pose proof (h_len _ _ _ (i_heap _ _ I)) as EL.
  assert (X : exists vs, trees_of (w_mem w) s vs /\ Forall (fun v => vheight v <= length (heap (w_mem w))) vs).
  { unfold trees_of. assert (Y : forall p, In p (s_roots (get_stack (w_mem w) s)) -> p < length (heap (w_mem w))).
    { intros p Ip. apply (b_root _ _ _ _ _ B) in Ip. apply owner_lt in Ip. lia. }
    revert Y. generalize (s_roots (get_stack (w_mem w) s)) as ps. induction ps as [|p ps IH]; intros Y.
    - exists []. split; constructor.
    - destruct IH as (vs & F & Hs); [intros; apply Y; now right|].
      destruct (repr_exists (heap (w_mem w)) (fun p c => inv_closed w own p c I) (length (heap (w_mem w))) p) as (v & Rv & Hv);
        [apply Y; now left|lia|].
      exists (v :: vs). split; constructor; auto. }
  destruct X as (vs & T & Hs). exists vs. split; auto.
  unfold snapshot in H. destruct (clone_entries _ _ _) as [h' qs] eqn:E. injection H as <- <-. simpl.
  eapply clone_repr; eauto. apply Forall_impl with (2 := Hs). intros; lia.
Qed.

Lemma snapshot_clones w own s m' r : Inv w own -> snapshot (w_mem w) s = (m', r) ->
  exists own', Inv (World m' (w_gs w)) own' /\ keeps w own (World m' (w_gs w)) own' /\
    clones (World m' (w_gs w)) own' (snd r) /\ fst r = s_end (get_stack (w_mem w) s).
Proof.
  intros I H. pose proof (h_len _ _ _ (i_heap _ _ I)) as EL.
  destruct (snapshot_inv _ _ _ _ _ I H) as (I' & (ext & X) & S' & E & Q).
  eexists. split; [exact I'|]. split; [|split; auto].
  - intros p L O. simpl. rewrite X, app_length. split; [lia|]. split; [rewrite owner_app_l by lia; auto|].
    now apply get_app_l.
  - apply Forall_forall. intros q Iq. apply Q in Iq. simpl. split; [lia|].
    unfold owner. rewrite app_nth2 by lia.
    destruct (nth_in_or_default (q - length own) (repeat (@None sid) (length (heap m') - length (heap (w_mem w)))) None) as [Z|Z]; auto.
    now apply repeat_spec in Z.
Qed.

Lemma env_step_run w ev w' ev' : env_step w ev = Some (w', ev') -> exists acts, run acts w = Some w'.
Proof.
  unfold env_step. destruct ev as [|a r]; intros H.
  - injection H as <- <-. now exists [].
  - destruct (run a w) eqn:E; [|discriminate]. injection H as <- <-. eauto.
Qed.

Lemma during_wider w w1 w2 w' a b m : run a w = Some w1 -> run b w2 = Some w' -> during w1 w2 m -> during w w' m.
Proof.
  intros A B (x & y & wi & X & Y & E). exists (a ++ x), (y ++ b), wi.
  rewrite !run_app, A, Y. auto.
Qed.

Lemma stacks_step w a w' : step w a = Some w' -> length (stacks (w_mem w)) <= length (stacks (w_mem w')).
Proof.
  destruct a; simpl; intros H.
  - destruct (g_alive _); [|discriminate]. unfold push_new in H. destruct (s_top _); injection H as <-; simpl; now rewrite upd_length.
  - destruct (g_alive _); [|discriminate]. destruct (g_frames _) as [|[] ?]; [discriminate|]. injection H as <-. simpl. now rewrite upd_length.
  - destruct (g_alive _); [|discriminate]. injection H as <-. destruct traced; simpl.
    + unfold append_go. destruct (s_top _); simpl; rewrite app_length; lia.
    + rewrite app_length; lia.
  - destruct (g_alive _); [|discriminate]. destruct (g_frames _); [|discriminate]. injection H as <-. simpl. now rewrite upd_length.
  - injection H as <-. unfold snapshot. destruct (clone_entries _ _ _). simpl. auto.
Qed.

(** Go entries refer to existing stacks. *)
Definition go_ok (m : mem) : Prop :=
  forall p c, p < length (heap m) -> e_go (get (heap m) p) = Some c -> c < length (stacks m).

Lemma clone_go n k : forall h ps h' qs, clone_entries k h ps = (h', qs) ->
  (forall p c, p < length h -> e_go (get h p) = Some c -> c < n) ->
  (forall p c, p < length h' -> e_go (get h' p) = Some c -> c < n).
Proof.
  induction k as [|k IHk]; intros h ps h' qs H G.
  - simpl in H. now injection H as <- <-.
  - revert h h' qs H G. induction ps as [|p r IHr]; intros h h' qs H G.
    + rewrite clone_nil in H. now injection H as <- <-.
    + rewrite clone_cons in H. cbv zeta in H.
      destruct (clone_entries k (h ++ [get h p]) (e_children (get h p))) as [h2 cs] eqn:E2.
      match type of H with context [upd h2 (length h) ?f] => change f with (set_children cs) in H end.
      destruct (clone_entries (S k) (upd h2 (length h) (set_children cs)) r) as [h4 qs'] eqn:E4.
      injection H as <- <-. eapply IHr; [exact E4|]. intros q c Lq Gq. rewrite upd_length in Lq.
      assert (X : e_go (get h2 q) = Some c).
      { rewrite get_upd_heap in Gq. destruct ((q =? length h) && _); auto. }
      clear Gq. revert q c Lq X. eapply IHk; [exact E2|]. intros q c Lq Gq.
      rewrite app_length in Lq; simpl in Lq. destruct (Nat.eq_dec q (length h)) as [->|N].
      * rewrite get_app_mid in Gq. destruct (Nat.lt_ge_cases p (length h)) as [Lp|Gp]; [eauto|].
        rewrite get_out in Gq by auto. discriminate.
      * rewrite get_app_l in Gq by lia. apply G with q; auto. lia.
Qed.

Lemma step_go_ok w own a w' : Inv w own -> go_ok (w_mem w) -> step w a = Some w' -> go_ok (w_mem w').
Proof.
  intros I G H. pose proof (stacks_step _ _ _ H) as LS. pose proof (i_len _ _ I) as IL. unfold go_ok in *.
  destruct a; simpl in H.
  - destruct (g_alive _); [|discriminate]. unfold push_new in H. destruct (s_top _) as [t|]; injection H as <-; simpl in *.
    + intros p c Lp Gp. apply Nat.lt_le_trans with (2 := LS). set (e := Entry _ _ _ _ _ _ _ _) in *.
      fold (attach (heap (w_mem w)) t e) in *. rewrite attach_length in Lp.
      destruct (Nat.eq_dec p (length (heap (w_mem w)))) as [->|N]; [rewrite get_attach_new in Gp; discriminate|].
      rewrite e_go_attach in Gp by lia. apply G with p; auto. lia.
    + intros p c Lp Gp. apply Nat.lt_le_trans with (2 := LS). rewrite app_length in Lp; simpl in Lp.
      destruct (Nat.eq_dec p (length (heap (w_mem w)))) as [->|N]; [rewrite get_app_mid in Gp; discriminate|].
      rewrite get_app_l in Gp by lia. apply G with p; auto. lia.
  - destruct (g_alive _); [|discriminate]. destruct (g_frames _) as [|[cur old] ?]; [discriminate|]. injection H as <-. simpl in *.
    intros p c Lp Gp. rewrite upd_length in Lp. rewrite upd_length. apply G with p; auto.
    rewrite get_upd_heap in Gp. destruct ((p =? cur) && (p <? length (heap (w_mem w)))); simpl in Gp; auto.
  - destruct (g_alive (gor_at w g)) eqn:AL; [|discriminate]. injection H as <-. apply alive_lt in AL.
    assert (X : forall p c, p < length (heap (w_mem w)) -> e_go (get (heap (w_mem w)) p) = Some c -> c < length (stacks (w_mem w) ++ [new_stack])).
    { intros p c Lp Gp. rewrite app_length. simpl. specialize (G p c Lp Gp). lia. }
    destruct traced; simpl; [|exact X].
    unfold append_go. destruct (s_top _) as [t|]; simpl; [|exact X].
    set (e := Entry _ _ _ _ _ _ _ _). fold (attach (heap (w_mem w)) t e). rewrite attach_length. intros p c Lp Gp.
    destruct (Nat.eq_dec p (length (heap (w_mem w)))) as [->|N].
    + rewrite get_attach_new in Gp. injection Gp as <-. rewrite app_length. simpl. lia.
    + rewrite e_go_attach in Gp by lia. apply X with p; auto. lia.
  - destruct (g_alive _); [|discriminate]. destruct (g_frames _); [|discriminate]. injection H as <-. simpl. now rewrite upd_length.
  - injection H as <-. unfold snapshot. destruct (clone_entries _ _ _) as [h' qs] eqn:E. simpl.
    eapply clone_go; eauto.
Qed.

Lemma run_go_ok acts : forall w own w', Inv w own -> go_ok (w_mem w) -> run acts w = Some w' -> go_ok (w_mem w').
Proof.
  induction acts as [|a r IH]; simpl; intros w own w' I G H.
  - now injection H as <-.
  - destruct (step w a) as [w1|] eqn:E; [|discriminate].
    destruct (step_inv _ _ _ _ I E) as [own1 I1]. apply (IH _ _ _ I1 (step_go_ok _ _ _ _ I G E) H).
Qed.

Lemma snapshot_run w s m' r : snapshot (w_mem w) s = (m', r) -> run [ASnapshot s] w = Some (World m' (w_gs w)).
Proof. intros E. simpl. now rewrite E. Qed.

Lemma export_sound k : forall ps w ev w' ev' xs own vs,
  Inv w own -> go_ok (w_mem w) -> clones w own ps -> Forall2 (repr (heap (w_mem w))) ps vs ->
  export_entries k ps w ev = Some (w', ev', xs) ->
  exists acts, run acts w = Some w' /\ Forall complete xs /\
    forall P : mem -> Prop, (forall m, during w w' m -> P m) -> Forall2 (shown P) vs xs.
Proof.
  induction k as [|k IH]; intros ps w ev w' ev' xs own vs I GO C F H; [discriminate|].
  destruct ps as [|p r].
  - simpl in H. injection H as <- <- <-. inversion F; subst. exists []. repeat split; auto.
  - simpl in H. destruct (env_step w ev) as [[w1 ev1]|] eqn:E1; [|discriminate].
    apply env_step_run in E1 as [a1 A1].
    destruct (run_keeps _ _ _ _ I A1) as (own1 & I1 & K1). pose proof (run_go_ok _ _ _ _ I GO A1) as GO1.
    destruct (clones_keep _ _ _ _ _ _ I K1 C F) as [C1 F1].
    inversion C1 as [|? ? [L1 O1] C1r]; subst. inversion F1 as [|? v ? vs' R1 F1r]; subst.
    apply repr_inv in R1 as (us & _ & Fu & ->).
    set (e := get (heap (w_mem w1)) p) in *.
    destruct (export_entries k (e_children e) w1 ev1) as [[[w2 ev2] xs1]|] eqn:E2; [|discriminate].
    assert (Cu : clones w1 own1 (e_children e)).
    { apply Forall_forall. intros c Ic. destruct (h_clone _ _ _ (i_heap _ _ I1) p c L1 O1 Ic) as (_ & X & Y). auto. }
    destruct (IH _ _ _ _ _ _ _ _ I1 GO1 Cu Fu E2) as (a2 & A2 & Q2 & S2).
    destruct (run_keeps _ _ _ _ I1 A2) as (own2 & I2 & K2). pose proof (run_go_ok _ _ _ _ I1 GO1 A2) as GO2.
    destruct (clones_keep _ _ _ _ _ _ I1 K2 C1r F1r) as [C2 F2].
    pose proof (h_half _ _ _ (i_heap _ _ I1) p L1) as HF. fold e in HF.
    destruct (e_go e) as [child|] eqn:EG.
    + destruct (env_step w2 ev2) as [[w3 ev3]|] eqn:E3; [|discriminate].
      apply env_step_run in E3 as [a3 A3].
      destruct (run_keeps _ _ _ _ I2 A3) as (own3 & I3 & K3). pose proof (run_go_ok _ _ _ _ I2 GO2 A3) as GO3.
      destruct (clones_keep _ _ _ _ _ _ I2 K3 C2 F2) as [C3 F3].
      destruct (snapshot (w_mem w3) child) as [m4 [ended roots]] eqn:E4.
      destruct (export_entries k roots (World m4 (w_gs w3)) ev3) as [[[w5 ev5] xs2]|] eqn:E5; [|discriminate].
      destruct (export_entries k r w5 ev5) as [[[w6 ev6] xs3]|] eqn:E6; [|discriminate].
      injection H as <- <- <-.
      assert (Lc : child < length (stacks (w_mem w3))).
      { assert (X : child < length (stacks (w_mem w1))) by (apply GO1 with p; auto).
        assert (Y : forall acts w w', run acts w = Some w' -> length (stacks (w_mem w)) <= length (stacks (w_mem w'))).
        { clear. induction acts as [|a r IH]; simpl; intros w w' H; [injection H as <-; auto|].
          destruct (step w a) eqn:E; [|discriminate]. apply stacks_step in E. apply IH in H. lia. }
        apply Y in A2. apply Y in A3. lia. }
      destruct (snapshot_clones _ _ _ _ _ I3 E4) as (own4 & I4 & K4 & C4 & EE). simpl in C4, EE.
      destruct (snapshot_repr _ _ _ _ _ I3 Lc E4) as (cvs & T4 & F4). simpl in F4.
      pose proof (snapshot_run _ _ _ _ E4) as A4. pose proof (run_go_ok _ _ _ _ I3 GO3 A4) as GO4.
      destruct (IH roots (World m4 (w_gs w3)) ev3 _ _ _ own4 cvs I4 GO4 C4 F4 E5) as (a5 & A5 & Q5 & S5).
      destruct (run_keeps _ _ _ _ I4 A5) as (own5 & I5 & K5). pose proof (run_go_ok _ _ _ _ I4 GO4 A5) as GO5.
      destruct (clones_keep _ _ _ _ _ _ I3 K4 C3 F3) as [C3' F3'].
      destruct (clones_keep _ _ _ _ _ _ I4 K5 C3' F3') as [C5 F5].
      destruct (IH r w5 ev5 _ _ _ own5 vs' I5 GO5 C5 F5 E6) as (a6 & A6 & Q6 & S6).
      assert (R25 : run (a3 ++ [ASnapshot child] ++ a5) w2 = Some w5) by rseq.
      exists (a1 ++ a2 ++ (a3 ++ [ASnapshot child] ++ a5) ++ a6). split; [|split].
      * rseq.
      * constructor; auto. constructor. apply Forall_app; auto.
      * intros P HP. constructor.
        -- rewrite EE. apply shown_go with (cvs := cvs); auto.
           ++ apply S2. intros m D. apply HP. eapply during_wider; [exact A1| |exact D].
              rseq.
           ++ apply HP. exists (a1 ++ a2 ++ a3), ([ASnapshot child] ++ a5 ++ a6), w3.
              split; [rseq|]. split; [rseq|reflexivity].
           ++ apply S5. intros m D. apply HP. eapply during_wider; [|exact A6|exact D].
              instantiate (1 := a1 ++ a2 ++ a3 ++ [ASnapshot child]). rseq.
        -- apply S6. intros m D. apply HP. eapply during_wider; [| |exact D].
           ++ instantiate (1 := a1 ++ a2 ++ a3 ++ [ASnapshot child] ++ a5).
              rseq.
           ++ instantiate (1 := []). reflexivity.
    + destruct (export_entries k r w2 ev2) as [[[w6 ev6] xs3]|] eqn:E6; [|discriminate].
      injection H as <- <- <-.
      destruct (IH r w2 ev2 _ _ _ own2 vs' I2 GO2 C2 F2 E6) as (a6 & A6 & Q6 & S6).
      exists (a1 ++ a2 ++ a6). split; [|split].
      * rseq.
      * constructor; auto. constructor; auto. destruct (e_finished e); simpl; [|tauto].
        split; [discriminate|]. intros X. apply HF in X. discriminate.
      * intros P HP. constructor.
        -- apply shown_call. apply S2. intros m D. apply HP. eapply during_wider; [exact A1|exact A6|exact D].
        -- apply S6. intros m D. apply HP. eapply during_wider; [| |exact D].
           ++ instantiate (1 := a1 ++ a2). rseq.
           ++ instantiate (1 := []). reflexivity.
Qed.

Lemma export_correct fuel s acts0 w ev w' ev' xs :
  run acts0 init_world = Some w -> s < length (stacks (w_mem w)) ->
  export fuel s w ev = Some (w', ev', xs) ->
  exported (during w w') s xs /\ Forall complete xs.
Proof.
  intros R Ls H. destruct (run_inv _ _ _ _ init_inv R) as [own I].
  assert (G0 : go_ok (w_mem init_world)) by (intros p c L; simpl in L; lia).
  pose proof (run_go_ok _ _ _ _ init_inv G0 R) as GO.
  unfold export in H. destruct (env_step w ev) as [[w1 ev1]|] eqn:E1; [|discriminate].
  apply env_step_run in E1 as [a1 A1]. destruct (run_inv _ _ _ _ I A1) as [own1 I1].
  pose proof (run_go_ok _ _ _ _ I GO A1) as GO1.
  destruct (snapshot (w_mem w1) s) as [m2 er] eqn:E2.
  assert (L1 : s < length (stacks (w_mem w1))).
  { assert (Y : forall acts w w', run acts w = Some w' -> length (stacks (w_mem w)) <= length (stacks (w_mem w'))).
    { clear. induction acts as [|a r IH]; simpl; intros w w' H; [injection H as <-; auto|].
      destruct (step w a) eqn:E; [|discriminate]. apply stacks_step in E. apply IH in H. lia. }
    apply Y in A1. lia. }
  destruct (snapshot_clones _ _ _ _ _ I1 E2) as (own2 & I2 & K2 & C2 & _).
  destruct (snapshot_repr _ _ _ _ _ I1 L1 E2) as (vs & T & F).
  pose proof (snapshot_run _ _ _ _ E2) as A2. pose proof (run_go_ok _ _ _ _ I1 GO1 A2) as GO2.
  destruct (export_sound _ _ _ _ _ _ _ _ _ I2 GO2 C2 F H) as (a3 & A3 & Q & S3).
  split; auto. exists (w_mem w1), vs. split; [|split; auto].
  - exists a1, ([ASnapshot s] ++ a3), w1. split; [rseq|]. split; [rseq|reflexivity].
  - apply S3. intros m D. eapply during_wider; [| |exact D].
    + instantiate (1 := a1 ++ [ASnapshot s]). rseq.
    + instantiate (1 := []). reflexivity.
Qed.

Lemma snapshot_immutable acts0 w s m' r acts w2 :
  run acts0 init_world = Some w -> s < length (stacks (w_mem w)) ->
  snapshot (w_mem w) s = (m', r) -> run acts (World m' (w_gs w)) = Some w2 ->
  forall vs, Forall2 (repr (heap (w_mem w2))) (snd r) vs <-> trees_of (w_mem w) s vs.
Proof.
  intros R Ls H R2. destruct (run_inv _ _ _ _ init_inv R) as [own I].
  destruct (snapshot_clones _ _ _ _ _ I H) as (own2 & I2 & K2 & C2 & _).
  destruct (snapshot_repr _ _ _ _ _ I Ls H) as (vs0 & T & F).
  destruct (run_keeps _ _ _ _ I2 R2) as (own3 & I3 & K3).
  destruct (clones_keep _ _ _ _ _ _ I2 K3 C2 F) as [_ F3].
  assert (D : forall h ps us us', Forall2 (repr h) ps us -> Forall2 (repr h) ps us' -> us = us').
  { clear. intros h ps us us' A. revert us'. induction A; intros us' B; inversion B; subst; auto.
    f_equal; auto. eapply repr_det; eauto. }
  intros vs. split; intros X.
  - now rewrite (D _ _ _ _ X F3).
  - unfold trees_of in *. now rewrite (D _ _ _ _ X T).
Qed.
