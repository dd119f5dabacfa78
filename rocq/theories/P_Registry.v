(** Proofs about the registry model. *)
From Coq Require Import List Arith Bool Lia.
From Verif Require Import M_Registry S_Registry.
Import ListNotations.

Lemma name_eqb_eq a b : name_eqb a b = true <-> a = b.
Proof.
  destruct a, b; simpl; split; intro H; try discriminate; try reflexivity;
    try (apply Nat.eqb_eq in H; subst; reflexivity);
    try (injection H as ->; apply Nat.eqb_refl).
Qed.
Lemma name_eqb_refl a : name_eqb a a = true.
Proof. now apply name_eqb_eq. Qed.
Lemma name_eqb_neq a b : name_eqb a b = false <-> a <> b.
Proof.
  rewrite <- (name_eqb_eq a b). destruct (name_eqb a b); split; congruence.
Qed.
Lemma name_eqb_sym a b : name_eqb a b = name_eqb b a.
Proof.
  destruct (name_eqb a b) eqn:E.
  - apply name_eqb_eq in E; subst; now rewrite name_eqb_refl.
  - symmetry; apply name_eqb_neq. apply name_eqb_neq in E. congruence.
Qed.

Lemma same_name_eqb a b : same_name a b = name_eqb a b.
Proof. unfold same_name. destruct (name_dec a b) as [->|N]; symmetry; [apply name_eqb_refl|now apply name_eqb_neq]. Qed.
Lemma bound_to_bound n want : bound_to n want = bound n want.
Proof. destruct n; reflexivity. Qed.
Lemma newest_last A (l : list A) : newest l = last_opt l.
Proof.
  induction l as [|x [|y l] IH]; try reflexivity. change (newest (x :: y :: l)) with (newest (y :: l)). rewrite IH.
  unfold last_opt. change (rev (x :: y :: l)) with (rev (y :: l) ++ [x]). destruct (rev (y :: l)) eqn:E; [|reflexivity].
  apply (f_equal (@length A)) in E. rewrite rev_length in E. discriminate.
Qed.
Lemma upd_same A (f : nat -> A) i v : upd f i v i = v.
Proof. unfold upd; now rewrite Nat.eqb_refl. Qed.
Lemma upd_other A (f : nat -> A) i j v : i <> j -> upd f i v j = f j.
Proof. unfold upd; intro H; apply Nat.eqb_neq in H; now rewrite H. Qed.
Lemma tset_same t n l : tset t n l n = l.
Proof. unfold tset; now rewrite name_eqb_refl. Qed.
Lemma tset_other t n m l : n <> m -> tset t n l m = t m.
Proof. unfold tset; intro H; apply name_eqb_neq in H; now rewrite H. Qed.

(** ** List cancellation *)
Definition ids (l : list holder) : list nat :=
  flat_map (fun h => match h_id h with Some c => [c] | None => [] end) l.

Lemma in_ids l c : In c (ids l) <-> exists x, In x l /\ h_id x = Some c.
Proof.
  unfold ids. rewrite in_flat_map. split.
  - intros (x & Hx & Hc). exists x. split; auto.
    destruct (h_id x); simpl in Hc; [destruct Hc as [->|[]]; auto | tauto].
  - intros (x & Hx & Hc). exists x. split; auto. rewrite Hc; simpl; auto.
Qed.

Lemma in_ids_map l c : In c (ids l) <-> In (Some c) (map h_id l).
Proof.
  rewrite in_ids, in_map_iff. split; intros (x & A & B); exists x; auto.
Qed.

Lemma ids_app a b : ids (a ++ b) = ids a ++ ids b.
Proof. unfold ids; apply flat_map_app. Qed.

Lemma without_notin c l : ~ In c (ids l) -> without c l = l.
Proof.
  induction l as [|x l IH]; simpl; intro H; auto.
  destruct (h_id x) eqn:E; simpl in *.
  - destruct (c =? n) eqn:En.
    + apply Nat.eqb_eq in En; subst. tauto.
    + simpl. f_equal. apply IH. tauto.
  - f_equal. apply IH; auto.
Qed.

Lemma without_app c a b : without c (a ++ b) = without c a ++ without c b.
Proof. unfold without; apply filter_app. Qed.

Lemma in_without c x l : In x (without c l) <-> In x l /\ h_id x <> Some c.
Proof.
  unfold without. rewrite filter_In. split; intros [A B]; split; auto.
  - destruct (h_id x); [|congruence]. intro E; injection E as ->.
    now rewrite Nat.eqb_refl in B.
  - destruct (h_id x); auto. destruct (c =? n) eqn:En; auto.
    apply Nat.eqb_eq in En; subst; congruence.
Qed.

Lemma remove_first_spec c l :
  NoDup (ids l) ->
  remove_first c l = if existsb (is_id c) l then Some (without c l) else None.
Proof.
  induction l as [|x l IH]; intro ND; [reflexivity|].
  cbn [remove_first existsb]. destruct (is_id c x) eqn:Ex.
  - simpl. unfold is_id in Ex. simpl in ND. destruct (h_id x) eqn:E; [|discriminate].
    rewrite Ex. simpl. apply Nat.eqb_eq in Ex; subst n.
    simpl in ND. inversion ND; subst. now rewrite without_notin.
  - simpl. simpl in ND. unfold is_id in Ex. destruct (h_id x) eqn:E; simpl in *.
    + inversion ND; subst. rewrite Ex, IH; auto. destruct (existsb (is_id c) l); auto.
    + rewrite IH; auto. destruct (existsb (is_id c) l); auto.
Qed.

Lemma existsb_ids c l : existsb (is_id c) l = true <-> In c (ids l).
Proof.
  rewrite existsb_exists, in_ids. split; intros (x & A & B); exists x; split; auto;
    unfold is_id in *.
  - destruct (h_id x); try discriminate. apply Nat.eqb_eq in B. congruence.
  - rewrite B. apply Nat.eqb_refl.
Qed.

Lemma cancel_list_spec c l :
  NoDup (ids l) ->
  cancel_list c l = if existsb (is_id c) l then Some (without c l) else None.
Proof.
  intro ND. unfold cancel_list. destruct (rev l) as [|x r] eqn:E.
  - apply (f_equal (@rev _)) in E. rewrite rev_involutive in E. subst. reflexivity.
  - assert (El : l = rev r ++ [x]).
    { apply (f_equal (@rev _)) in E. rewrite rev_involutive in E. exact E. }
    destruct (is_id c x) eqn:Ex.
    + assert (Hex : existsb (is_id c) l = true).
      { rewrite El, existsb_app. simpl. now rewrite Ex, orb_comm. }
      rewrite Hex. f_equal. rewrite El, removelast_last, without_app.
      unfold is_id in Ex. simpl. destruct (h_id x) eqn:Eh; try discriminate.
      rewrite Ex. simpl. rewrite app_nil_r.
      apply Nat.eqb_eq in Ex; subst n.
      rewrite without_notin; auto.
      rewrite El, ids_app in ND. simpl in ND. rewrite Eh in ND. simpl in ND.
      apply NoDup_remove_2 in ND. rewrite app_nil_r in ND. exact ND.
    + now apply remove_first_spec.
Qed.

Lemma nodup_without c l : NoDup (ids l) -> NoDup (ids (without c l)).
Proof.
  induction l as [|x l IH]; simpl; intro H; auto.
  destruct (h_id x) eqn:E; simpl in *.
  - inversion H as [|? ? Hni ND]; subst.
    destruct (c =? n); simpl; auto. rewrite E. simpl. constructor; auto.
    rewrite in_ids in *. intros (y & Hy & Hc). apply Hni. exists y.
    apply in_without in Hy. tauto.
  - rewrite E. simpl. auto.
Qed.

(** ** The structural invariant, for every history *)
Record Inv (h : list op) (w : world) : Prop := {
  i_init : w_init w = init_done h;
  i_ncl : length (w_cancels w) = pushes h;
  i_canc : forall c, In (OCancel c) h -> c < pushes h;
  i_live : forall g, g_live (w_slots w g) = running h g;
  i_heap_ids : forall sp n x c, sp < w_next w -> In x (s_table (w_heap w sp) n) ->
      h_id x = Some c -> nth_error (w_cancels w) c = Some (Closure (HStack sp) n);
  i_heap_nd : forall sp n, sp < w_next w -> NoDup (ids (s_table (w_heap w sp) n));
  i_glob_ids : forall n x c, In x (w_global w n) ->
      h_id x = Some c -> nth_error (w_cancels w) c = Some (Closure HGlobal n);
  i_glob_nd : forall n, NoDup (ids (w_global w n));
  i_slot_lt : forall g sp, g_stack (w_slots w g) = Some sp ->
      sp < w_next w /\ g_live (w_slots w g) = true /\ w_init w = true;
  i_slot_inj : forall g1 g2 sp, g_stack (w_slots w g1) = Some sp ->
      g_stack (w_slots w g2) = Some sp -> g1 = g2;
  i_cl : forall c sp n, nth_error (w_cancels w) c = Some (Closure (HStack sp) n) ->
      sp < w_next w /\ w_init w = true /\ pre_init_pushes h <= c /\
      (In c (ids (s_table (w_heap w sp) n)) <-> ~ In (OCancel c) h);
  i_clg : forall c n, nth_error (w_cancels w) c = Some (Closure HGlobal n) ->
      c < pre_init_pushes h /\
      (w_init w = false -> (In c (ids (w_global w n)) <-> ~ In (OCancel c) h));
  i_pre : pre_init_pushes h <= pushes h /\ (init_done h = false -> pre_init_pushes h = pushes h);
}.

Ltac tri I :=
  try solve [apply I; auto | eapply (i_heap_ids _ _ I); eauto | eapply (i_glob_ids _ _ I); eauto
            | eapply (i_slot_lt _ _ I); eauto | eapply (i_slot_inj _ _ I); eauto
            | eapply (i_clg _ _ I); eauto | eapply (i_cl _ _ I); eauto].

Lemma inv0 : Inv [] w0.
Proof.
  constructor; simpl; intros; auto; try lia; try tauto.
  - unfold upd. destruct g; reflexivity.
  - constructor.
  - exfalso. unfold upd in H. destruct (0 =? g); discriminate.
  - exfalso. unfold upd in H. destruct (0 =? g1); discriminate.
  - destruct c; discriminate.
  - destruct c; discriminate.
Qed.

Lemma nth_app_l A (l : list A) x c y : nth_error l c = Some y -> nth_error (l ++ [x]) c = Some y.
Proof.
  intro H. rewrite nth_error_app1; auto. apply nth_error_Some. congruence.
Qed.
Lemma nth_snoc A (l : list A) x : nth_error (l ++ [x]) (length l) = Some x.
Proof. rewrite nth_error_app2, Nat.sub_diag; auto. Qed.
Lemma nth_snoc_inv A (l : list A) x c y :
  nth_error (l ++ [x]) c = Some y ->
  (nth_error l c = Some y /\ c < length l) \/ (c = length l /\ x = y).
Proof.
  intro H. destruct (Nat.lt_ge_cases c (length l)).
  - left. rewrite nth_error_app1 in H; auto.
  - right. rewrite nth_error_app2 in H; auto.
    destruct (c - length l) eqn:E; simpl in H.
    + split; [lia | congruence].
    + destruct n; discriminate.
Qed.

Lemma inv_id_lt h w sp n c : Inv h w -> sp < w_next w ->
  In c (ids (s_table (w_heap w sp) n)) -> c < pushes h.
Proof.
  intros I L H. apply in_ids in H as (x & Hx & Hc).
  pose proof (i_heap_ids _ _ I _ _ _ _ L Hx Hc) as E.
  rewrite <- (i_ncl _ _ I). apply nth_error_Some. congruence.
Qed.
Lemma inv_gid_lt h w n c : Inv h w -> In c (ids (w_global w n)) -> c < pushes h.
Proof.
  intros I H. apply in_ids in H as (x & Hx & Hc).
  pose proof (i_glob_ids _ _ I _ _ _ Hx Hc) as E.
  rewrite <- (i_ncl _ _ I). apply nth_error_Some. congruence.
Qed.

(** A fresh heap cell for the current goroutine keeps the invariant. *)
Lemma inv_attach h w g w1 sp :
  Inv h w -> w_init w = true -> running h g = true ->
  get_or_attach w g = (w1, sp) ->
  Inv h w1 /\ g_stack (w_slots w1 g) = Some sp /\ w_init w1 = w_init w /\
  w_cancels w1 = w_cancels w /\ w_global w1 = w_global w.
Proof.
  intros I Hi Hg E. unfold get_or_attach in E.
  destruct (g_stack (w_slots w g)) eqn:Es.
  - injection E as <- <-. auto.
  - injection E as <- <-. simpl. rewrite upd_same. simpl. split; [|auto].
    constructor; simpl; intros; tri I.
    + destruct (Nat.eq_dec g g0); subst.
      * rewrite upd_same; simpl. apply I.
      * rewrite upd_other; auto. apply I.
    + destruct (Nat.eq_dec sp (w_next w)); subst.
      * rewrite upd_same in H0. simpl in H0. tauto.
      * rewrite upd_other in H0; auto. apply (i_heap_ids _ _ I) with (x := x); auto. lia.
    + destruct (Nat.eq_dec sp (w_next w)); subst.
      * rewrite upd_same. simpl. constructor.
      * rewrite upd_other; auto. apply I. lia.
    + destruct (Nat.eq_dec g g0); subst.
      * rewrite upd_same in *; simpl in *. injection H as <-.
        rewrite (i_live _ _ I). repeat split; auto.
      * rewrite upd_other in *; auto. apply (i_slot_lt _ _ I) in H. intuition lia.
    + assert (L : forall g' sp', g_stack (w_slots w g') = Some sp' -> sp' < w_next w).
      { intros g' sp' H'. now apply (i_slot_lt _ _ I) in H'. }
      destruct (Nat.eq_dec g g1), (Nat.eq_dec g g2); subst; auto.
      * rewrite upd_same in H; rewrite upd_other in H0; auto. simpl in H.
        injection H as <-. apply L in H0. lia.
      * rewrite upd_same in H0; rewrite upd_other in H; auto. simpl in H0.
        injection H0 as <-. apply L in H. lia.
      * rewrite upd_other in H, H0; auto. eapply (i_slot_inj _ _ I); eauto.
    + pose proof (i_cl _ _ I _ _ _ H) as (A & B & C & D).
      rewrite upd_other by lia. repeat split; auto; try lia; apply D.
Qed.

Lemma pushes_cons_other o h :
  (forall g n a b, o <> OPush g n a b) -> pushes (o :: h) = pushes h.
Proof. destruct o; simpl; intros; auto. exfalso; eapply H; reflexivity. Qed.

Lemma inv_push h w g n want beh :
  Inv h w -> running h g = true ->
  Inv (OPush g n want beh :: h) (push w g n want beh).
Proof.
  intros I Hg. unfold push. destruct (w_init w) eqn:Ei.
  - destruct (get_or_attach w g) as [w1 sp] eqn:Ea.
    destruct (inv_attach _ _ _ _ _ I Ei Hg Ea) as (I1 & Es & Ei1 & Ec & Eg).
    clear I. set (hd := Holder (Some (length (w_cancels w))) (bound n want) beh).
    assert (Hlen : length (w_cancels w) = pushes h) by (rewrite <- Ec; apply I1).
    pose proof (i_slot_lt _ _ I1 _ _ Es) as (Hsp & _ & _).
    assert (Hid : init_done h = true) by (rewrite <- (i_init _ _ I1); congruence).
    constructor; simpl; intros.
    + apply I1.
    + rewrite app_length, Ec. simpl. lia.
    + destruct H as [H|H]; [discriminate|]. apply (i_canc _ _ I1) in H. lia.
    + apply I1.
    + rewrite Ec. destruct (Nat.eq_dec sp sp0); subst.
      * rewrite upd_same in H0; simpl in H0.
        destruct (name_eqb n n0) eqn:En.
        -- apply name_eqb_eq in En; subst n0. rewrite tset_same in H0.
           apply in_app_or in H0 as [H0|[<-|[]]].
           ++ apply nth_app_l. rewrite <- Ec. eapply (i_heap_ids _ _ I1); eauto.
           ++ subst hd; simpl in H1. injection H1 as <-. apply nth_snoc.
        -- apply name_eqb_neq in En. rewrite tset_other in H0; auto.
           apply nth_app_l. rewrite <- Ec. eapply (i_heap_ids _ _ I1); eauto.
      * rewrite upd_other in H0; auto. apply nth_app_l. rewrite <- Ec.
        eapply (i_heap_ids _ _ I1); eauto.
    + destruct (Nat.eq_dec sp sp0); subst.
      * rewrite upd_same; simpl. destruct (name_eqb n n0) eqn:En.
        -- apply name_eqb_eq in En; subst n0. rewrite tset_same, ids_app.
           subst hd; simpl. apply NoDup_Add with (a := length (w_cancels w)) (l := ids (s_table (w_heap w1 sp0) n)).
           ++ replace (ids (s_table (w_heap w1 sp0) n)) with (ids (s_table (w_heap w1 sp0) n) ++ []) at 1 by apply app_nil_r.
              apply Add_app.
           ++ split; [apply I1; auto|]. intro Hin. apply (inv_id_lt _ _ _ _ _ I1) in Hin; auto. lia.
        -- apply name_eqb_neq in En. rewrite tset_other; auto. apply I1; auto.
      * rewrite upd_other; auto. apply I1; auto.
    + rewrite Ec. apply nth_app_l. rewrite <- Ec. eapply (i_glob_ids _ _ I1); eauto.
    + apply I1.
    + eapply (i_slot_lt _ _ I1); eauto.
    + eapply (i_slot_inj _ _ I1); eauto.
    + rewrite Ec in H. rewrite Hid.
      apply nth_snoc_inv in H as [[H HL]|[-> H]].
      * rewrite <- Ec in H. pose proof (i_cl _ _ I1 _ _ _ H) as (A & B & C & D).
        split; [auto|]. split; [auto|]. split; [auto|].
        assert (Hc : c <> length (w_cancels w)) by lia.
        destruct (Nat.eq_dec sp sp0); subst.
        -- rewrite upd_same; simpl. destruct (name_eqb n n0) eqn:En.
           ++ apply name_eqb_eq in En; subst n0. rewrite tset_same, ids_app, in_app_iff.
              subst hd; simpl. rewrite D. intuition congruence.
           ++ apply name_eqb_neq in En. rewrite tset_other; auto. rewrite D. intuition congruence.
        -- rewrite upd_other; auto. rewrite D. intuition congruence.
      * injection H as <- <-. repeat split; auto; try congruence.
        -- rewrite Hlen. apply I1.
        -- intros _ [H|H]; [discriminate|]. apply (i_canc _ _ I1) in H. lia.
        -- intros _. rewrite upd_same; simpl. rewrite tset_same, ids_app, in_app_iff.
           subst hd; simpl; auto.
    + rewrite Ec in H. rewrite Hid.
      apply nth_snoc_inv in H as [[H HL]|[-> H]]; [|discriminate].
      rewrite <- Ec in H. destruct (i_clg _ _ I1 _ _ H) as [A B].
      split; auto. intro E; congruence.
    + rewrite Hid. destruct (i_pre _ _ I1) as [A B]. split; [lia|discriminate].
  - set (hd := Holder (Some (length (w_cancels w))) (bound n want) beh).
    assert (Hlen : length (w_cancels w) = pushes h) by apply I.
    assert (Hid : init_done h = false) by (rewrite <- (i_init _ _ I); auto).
    destruct (i_pre _ _ I) as [HP1 HP2]. specialize (HP2 Hid).
    constructor; simpl; intros.
    + apply I.
    + rewrite app_length. simpl. lia.
    + destruct H as [H|H]; [discriminate|]. apply (i_canc _ _ I) in H. lia.
    + apply I.
    + apply nth_app_l. eapply (i_heap_ids _ _ I); eauto.
    + apply I; auto.
    + destruct (name_eqb n n0) eqn:En.
      * apply name_eqb_eq in En; subst n0. rewrite tset_same in H.
        apply in_app_or in H as [H|[<-|[]]].
        -- apply nth_app_l. eapply (i_glob_ids _ _ I); eauto.
        -- subst hd; simpl in H0. injection H0 as <-. apply nth_snoc.
      * apply name_eqb_neq in En. rewrite tset_other in H; auto.
        apply nth_app_l. eapply (i_glob_ids _ _ I); eauto.
    + destruct (name_eqb n n0) eqn:En.
      * apply name_eqb_eq in En; subst n0. rewrite tset_same, ids_app. subst hd; simpl.
        apply NoDup_Add with (a := length (w_cancels w)) (l := ids (w_global w n)).
        -- replace (ids (w_global w n)) with (ids (w_global w n) ++ []) at 1 by apply app_nil_r.
           apply Add_app.
        -- split; [apply I; auto|]. intro Hin. apply (inv_gid_lt _ _ _ _ I) in Hin; auto. lia.
      * apply name_eqb_neq in En. rewrite tset_other; auto. apply I; auto.
    + eapply (i_slot_lt _ _ I); eauto.
    + eapply (i_slot_inj _ _ I); eauto.
    + apply nth_snoc_inv in H as [[H HL]|[-> H]]; [|discriminate].
      destruct (i_cl _ _ I _ _ _ H) as (A & B & _). congruence.
    + rewrite Hid. apply nth_snoc_inv in H as [[H HL]|[-> H]].
      * destruct (i_clg _ _ I _ _ H) as [A B]. split; [lia|]. intros Ew. specialize (B Ew).
        assert (Hc : c <> length (w_cancels w)) by lia.
        destruct (name_eqb n n0) eqn:En.
        -- apply name_eqb_eq in En; subst n0. rewrite tset_same, ids_app, in_app_iff.
           subst hd; simpl. rewrite B. intuition congruence.
        -- apply name_eqb_neq in En. rewrite tset_other; auto. rewrite B. intuition congruence.
      * injection H as <-. split; [lia|]. intros _. rewrite tset_same, ids_app, in_app_iff.
        subst hd; simpl. split; auto. intros _ [H|H]; [discriminate|].
        apply (i_canc _ _ I) in H. lia.
    + rewrite Hid. split; lia.
Qed.

Lemma ids_without c d l : In d (ids (without c l)) <-> In d (ids l) /\ d <> c.
Proof.
  rewrite !in_ids. split.
  - intros (x & Hx & Hc). apply in_without in Hx as [A B]. split; [exists x; auto|congruence].
  - intros ((x & A & B) & C). exists x. split; auto. apply in_without. split; congruence.
Qed.

(** Effect of a cancel function in a reachable world. *)
Lemma cancel_effect h w c cl :
  Inv h w -> nth_error (w_cancels w) c = Some cl ->
  cancel w c cl =
  match c_ref cl with
  | HGlobal =>
      if w_init w then (w, Panicked)
      else if existsb (is_id c) (w_global w (c_name cl))
           then (set_global w (tset (w_global w) (c_name cl) (without c (w_global w (c_name cl)))), Ok)
           else (w, Panicked)
  | HStack sp =>
      let t := s_table (w_heap w sp) in
      if existsb (is_id c) (t (c_name cl))
      then (set_heap_table w sp (tset t (c_name cl) (without c (t (c_name cl)))), Ok)
      else (w, Panicked)
  end.
Proof.
  intros I H. unfold cancel. destruct cl as [[|sp] n]; simpl.
  - destruct (w_init w); auto. rewrite cancel_list_spec by apply I.
    destruct (existsb (is_id c) (w_global w n)); auto.
  - destruct (i_cl _ _ I _ _ _ H) as (A & _). rewrite cancel_list_spec by (apply I; auto).
    destruct (existsb (is_id c) (s_table (w_heap w sp) n)); auto.
Qed.

Lemma inv_cancel h w c cl :
  Inv h w -> nth_error (w_cancels w) c = Some cl ->
  Inv (OCancel c :: h) (fst (cancel w c cl)).
Proof.
  intros I H. rewrite (cancel_effect _ _ _ _ I H).
  assert (Hlt : c < pushes h).
  { rewrite <- (i_ncl _ _ I). apply nth_error_Some. congruence. }
  (* the unchanged world *)
  assert (Same : (c_ref cl = HGlobal -> w_init w = false -> ~ In c (ids (w_global w (c_name cl)))) ->
                 (forall sp, c_ref cl = HStack sp -> ~ In c (ids (s_table (w_heap w sp) (c_name cl)))) ->
                 Inv (OCancel c :: h) w).
  { intros NG NS. constructor; simpl; intros; tri I.
    - destruct H0 as [E|E]; [injection E as <-; auto | now apply (i_canc _ _ I)].
    - destruct (i_cl _ _ I _ _ _ H0) as (A & B & C & D). split; [auto|]. split; [auto|]. split; [auto|].
      destruct (Nat.eq_dec c c0); subst.
      + rewrite H0 in H. injection H as <-. simpl in NS. specialize (NS sp eq_refl). tauto.
      + rewrite D. intuition congruence.
    - destruct (i_clg _ _ I _ _ H0) as [A B]. split; auto. intro Ew. specialize (B Ew).
      destruct (Nat.eq_dec c c0); subst.
      + rewrite H0 in H. injection H as <-. simpl in NG. specialize (NG eq_refl Ew). tauto.
      + rewrite B. intuition congruence. }
  destruct cl as [[|sp] n]; simpl in *.
  - destruct (w_init w) eqn:Ei; simpl.
    + apply Same; congruence.
    + destruct (existsb (is_id c) (w_global w n)) eqn:Ex; simpl.
      * apply existsb_ids in Ex.
        constructor; simpl; intros; tri I.
        -- destruct H0 as [E|E]; [injection E as <-; auto | now apply (i_canc _ _ I)].
        -- destruct (name_eqb n n0) eqn:En.
           ++ apply name_eqb_eq in En; subst. rewrite tset_same in H0. apply in_without in H0 as [H0 _].
              eapply (i_glob_ids _ _ I); eauto.
           ++ apply name_eqb_neq in En. rewrite tset_other in H0; auto. eapply (i_glob_ids _ _ I); eauto.
        -- destruct (name_eqb n n0) eqn:En.
           ++ apply name_eqb_eq in En; subst. rewrite tset_same. apply nodup_without, I.
           ++ apply name_eqb_neq in En. rewrite tset_other; auto. apply I.
        -- destruct (i_cl _ _ I _ _ _ H0) as (A & B & C & D). congruence.
        -- destruct (i_clg _ _ I _ _ H0) as [A B]. split; auto. intro Ew. specialize (B Ei).
           destruct (name_eqb n n0) eqn:En.
           ++ apply name_eqb_eq in En; subst. rewrite tset_same, ids_without, B.
              intuition congruence.
           ++ apply name_eqb_neq in En. rewrite tset_other; auto. rewrite B.
              split; [|tauto]. intros X [E|E]; [|tauto]. injection E as ->. congruence.
      * apply Same; [|discriminate].
        intros _ _ Hin. apply existsb_ids in Hin. congruence.
  - destruct (i_cl _ _ I _ _ _ H) as (Hsp & Hi & Hpre & Hcl).
    destruct (existsb (is_id c) (s_table (w_heap w sp) n)) eqn:Ex; simpl.
    + apply existsb_ids in Ex.
      constructor; simpl; intros; tri I.
      * destruct H0 as [E|E]; [injection E as <-; auto | now apply (i_canc _ _ I)].
      * destruct (Nat.eq_dec sp sp0); subst.
        -- rewrite upd_same in H1; simpl in H1. destruct (name_eqb n n0) eqn:En.
           ++ apply name_eqb_eq in En; subst. rewrite tset_same in H1. apply in_without in H1 as [H1 _].
              eapply (i_heap_ids _ _ I); eauto.
           ++ apply name_eqb_neq in En. rewrite tset_other in H1; auto. eapply (i_heap_ids _ _ I); eauto.
        -- rewrite upd_other in H1; auto. eapply (i_heap_ids _ _ I); eauto.
      * destruct (Nat.eq_dec sp sp0); subst.
        -- rewrite upd_same; simpl. destruct (name_eqb n n0) eqn:En.
           ++ apply name_eqb_eq in En; subst. rewrite tset_same. apply nodup_without, I; auto.
           ++ apply name_eqb_neq in En. rewrite tset_other; auto. apply I; auto.
        -- rewrite upd_other; auto. apply I; auto.
      * destruct (i_cl _ _ I _ _ _ H0) as (A & B & C & D). split; [auto|]. split; [auto|]. split; [auto|].
        destruct (Nat.eq_dec sp sp0); subst.
        -- rewrite upd_same; simpl. destruct (name_eqb n n0) eqn:En.
           ++ apply name_eqb_eq in En; subst. rewrite tset_same, ids_without, D. intuition congruence.
           ++ apply name_eqb_neq in En. rewrite tset_other; auto. rewrite D.
              split; [|tauto]. intros X [E|E]; [|tauto]. injection E as ->. congruence.
        -- rewrite upd_other; auto. rewrite D.
           split; [|tauto]. intros X [E|E]; [|tauto]. injection E as ->. congruence.
      * destruct (i_clg _ _ I _ _ H0) as [A B]. split; auto. intro; congruence.
    + apply Same; [discriminate|].
      intros sp' E Hin. injection E as <-. apply existsb_ids in Hin. congruence.
Qed.

Definition set_init (w : world) : world :=
  World true (w_global w) (w_slots w) (w_heap w) (w_next w) (w_cancels w).

Lemma inv_initdone h w : Inv h w -> w_init w = false -> Inv (OInitDone :: h) (set_init w).
Proof.
  intros I E. constructor; simpl; intros; tri I; auto.
  - destruct H as [H|H]; [discriminate|]. now apply (i_canc _ _ I).
  - apply (i_slot_lt _ _ I) in H. tauto.
  - destruct (i_cl _ _ I _ _ _ H) as (A & B & C & D). congruence.
  - destruct (i_clg _ _ I _ _ H) as [A B]. split; auto; discriminate.
  - destruct (i_pre _ _ I). split; auto; discriminate.
Qed.

Definition neutral (o : op) : Prop :=
  match o with OPush _ _ _ _ | OCancel _ | OInitDone => False | _ => True end.
Lemma neutral_facts o h : neutral o ->
  pushes (o :: h) = pushes h /\ init_done (o :: h) = init_done h /\
  pre_init_pushes (o :: h) = pre_init_pushes h /\
  (forall c, In (OCancel c) (o :: h) <-> In (OCancel c) h).
Proof.
  destruct o; simpl; intro H; try tauto; repeat split; auto; intros [E|E]; auto; discriminate.
Qed.

(** Changing one slot to hold no stack, or its own stack, keeps the invariant. *)
Lemma inv_set_slot h w o g sl :
  Inv h w -> neutral o ->
  (g_stack sl = None \/ (g_stack sl = g_stack (w_slots w g) /\ g_live sl = g_live (w_slots w g))) ->
  (forall g', running (o :: h) g' = if g =? g' then g_live sl else running h g') ->
  Inv (o :: h) (set_slot w g sl).
Proof.
  intros I N S R. destruct (neutral_facts o h N) as (E1 & E2 & E3 & E4).
  constructor; intros.
  - rewrite E2. apply I.
  - rewrite E1. apply I.
  - rewrite E1. apply I. now apply E4.
  - rewrite R. simpl. unfold upd. destruct (g =? g0); auto. apply I.
  - simpl in *. eapply (i_heap_ids _ _ I); eauto.
  - simpl in *. apply I; auto.
  - simpl in *. eapply (i_glob_ids _ _ I); eauto.
  - simpl in *. apply I; auto.
  - simpl in *. unfold upd in *. destruct (g =? g0) eqn:E.
    + apply Nat.eqb_eq in E; subst g0. destruct S as [S|[S S']]; [congruence|].
      rewrite S in H. apply (i_slot_lt _ _ I) in H. rewrite S'. tauto.
    + now apply (i_slot_lt _ _ I) in H.
  - simpl in *. unfold upd in *. destruct (g =? g1) eqn:Ea; destruct (g =? g2) eqn:Eb;
      try apply Nat.eqb_eq in Ea; try apply Nat.eqb_eq in Eb; subst; auto.
    + destruct S as [S|[S S']]; [congruence|]. rewrite S in H. eapply (i_slot_inj _ _ I); eauto.
    + destruct S as [S|[S S']]; [congruence|]. rewrite S in H0. eapply (i_slot_inj _ _ I); eauto.
    + eapply (i_slot_inj _ _ I); eauto.
  - simpl in *. destruct (i_cl _ _ I _ _ _ H) as (A & B & C & D). rewrite E3.
    split; [auto|]. split; [auto|]. split; [auto|]. rewrite E4. exact D.
  - simpl in *. destruct (i_clg _ _ I _ _ H) as (A & B). rewrite E3. split; auto.
    rewrite E4. exact B.
  - rewrite E1, E2, E3. apply I.
Qed.

(** Same history, slot of a live goroutine replaced (frames bookkeeping). *)
Lemma inv_set_slot' h w g sl :
  Inv h w ->
  g_live sl = g_live (w_slots w g) ->
  (g_stack sl = None \/ g_stack sl = g_stack (w_slots w g)) ->
  Inv h (set_slot w g sl).
Proof.
  intros I L S. constructor; intros; simpl in *; tri I.
  - unfold upd. destruct (g =? g0) eqn:E; [|apply I].
    apply Nat.eqb_eq in E; subst. rewrite L. apply I.
  - unfold upd in *. destruct (g =? g0) eqn:E.
    + apply Nat.eqb_eq in E; subst g0. destruct S as [S|S]; [congruence|].
      rewrite S in H. apply (i_slot_lt _ _ I) in H. rewrite L. tauto.
    + now apply (i_slot_lt _ _ I) in H.
  - unfold upd in *. destruct (g =? g1) eqn:Ea; destruct (g =? g2) eqn:Eb;
      try apply Nat.eqb_eq in Ea; try apply Nat.eqb_eq in Eb; subst; auto.
    + destruct S as [S|S]; [congruence|]. rewrite S in H. eapply (i_slot_inj _ _ I); eauto.
    + destruct S as [S|S]; [congruence|]. rewrite S in H0. eapply (i_slot_inj _ _ I); eauto.
    + eapply (i_slot_inj _ _ I); eauto.
Qed.

(** Replacing a heap cell's content by one without captured holders, when the
    cell had none. *)
Lemma inv_set_heap h w sp o :
  Inv h w -> sp < w_next w ->
  (forall n, ids (s_table o n) = ids (s_table (w_heap w sp) n)) ->
  Inv h (set_heap w sp o).
Proof.
  intros I L E. constructor; intros; simpl in *; tri I.
  - unfold upd in *. destruct (sp =? sp0) eqn:Es.
    + apply Nat.eqb_eq in Es; subst sp0.
      assert (In c (ids (s_table o n))) by (apply in_ids; eauto).
      rewrite E in H2. apply in_ids in H2 as (y & Hy & Hc).
      eapply (i_heap_ids _ _ I); eauto.
    + eapply (i_heap_ids _ _ I); eauto.
  - unfold upd. destruct (sp =? sp0) eqn:Es.
    + apply Nat.eqb_eq in Es; subst sp0. rewrite E. apply I; auto.
    + apply I; auto.
  - destruct (i_cl _ _ I _ _ _ H) as (A & B & C & D).
    split; [auto|]. split; [auto|]. split; [auto|].
    unfold upd. destruct (sp =? sp0) eqn:Es; auto.
    apply Nat.eqb_eq in Es; subst sp0. rewrite E. exact D.
Qed.

Lemma ids_map_none (f : holder -> holder) l :
  (forall x, h_id (f x) = None) -> ids (map f l) = [].
Proof. intro H. induction l; simpl; auto. now rewrite H, IHl. Qed.

Lemma clone_ids t n : ids (clone_table t n) = [].
Proof. apply ids_map_none. intro x; destruct n; reflexivity. Qed.

Lemma attach_fresh w g w1 sp :
  g_stack (w_slots w g) = None -> get_or_attach w g = (w1, sp) ->
  sp = w_next w /\ w_next w1 = S (w_next w) /\
  w_heap w1 = upd (w_heap w) sp (SObj empty_table false).
Proof.
  unfold get_or_attach. intros -> E. injection E as <- <-. auto.
Qed.

Lemma inv_go rs h w g s :
  Inv h w -> running h g = true -> running h s = false ->
  Inv (OGo g s :: h) (go rs w g s).
Proof.
  intros I Hg Hs. unfold go.
  set (w1 := set_slot w s (Slot true None [])).
  assert (I1 : Inv (OGo g s :: h) w1).
  { apply inv_set_slot; simpl; auto. }
  destruct rs; auto. destruct (w_init w) eqn:Ei; simpl; auto.
  destruct (g_stack (w_slots w g)) as [cur|] eqn:Ec; auto.
  destruct (get_or_attach w1 s) as [w2 sp] eqn:Ea.
  assert (Hn : g_stack (w_slots w1 s) = None) by (subst w1; simpl; now rewrite upd_same).
  destruct (attach_fresh _ _ _ _ Hn Ea) as (Esp & En & Eh).
  destruct (inv_attach _ w1 s w2 sp I1) as (I2 & Es & _); auto.
  { simpl. now rewrite Nat.eqb_refl. }
  apply inv_set_heap; auto.
  - subst sp. lia.
  - intro n. simpl. rewrite clone_ids, Eh, upd_same. reflexivity.
Qed.

Lemma inv_neutral h w o :
  Inv h w -> neutral o -> (forall g', running (o :: h) g' = running h g') -> Inv (o :: h) w.
Proof.
  intros I N R. destruct (neutral_facts o h N) as (E1 & E2 & E3 & E4).
  constructor; intros.
  - rewrite E2. apply I.
  - rewrite E1. apply I.
  - rewrite E1. apply I. now apply E4.
  - rewrite R. apply I.
  - eapply (i_heap_ids _ _ I); eauto.
  - apply I; auto.
  - eapply (i_glob_ids _ _ I); eauto.
  - apply I; auto.
  - eapply (i_slot_lt _ _ I); eauto.
  - eapply (i_slot_inj _ _ I); eauto.
  - destruct (i_cl _ _ I _ _ _ H) as (A & B & C & D). rewrite E3.
    split; [auto|]. split; [auto|]. split; [auto|]. rewrite E4. exact D.
  - destruct (i_clg _ _ I _ _ H) as (A & B). rewrite E3. split; auto.
    rewrite E4. exact B.
  - rewrite E1, E2, E3. apply I.
Qed.

(** Allocating an unreferenced, holder-free heap cell. *)
Definition alloc (w : world) (o : sobj) : world :=
  World (w_init w) (w_global w) (w_slots w) (upd (w_heap w) (w_next w) o) (S (w_next w)) (w_cancels w).
Lemma inv_alloc h w b : Inv h w -> Inv h (alloc w (SObj empty_table b)).
Proof.
  intro I. constructor; simpl; intros; tri I.
  - destruct (Nat.eq_dec sp (w_next w)); subst.
    + rewrite upd_same in H0. simpl in H0. tauto.
    + rewrite upd_other in H0; auto. apply (i_heap_ids _ _ I) with (x := x); auto. lia.
  - destruct (Nat.eq_dec sp (w_next w)); subst.
    + rewrite upd_same. simpl. constructor.
    + rewrite upd_other; auto. apply I. lia.
  - apply (i_slot_lt _ _ I) in H. intuition lia.
  - pose proof (i_cl _ _ I _ _ _ H) as (A & B & C & D).
    rewrite upd_other by lia. repeat split; auto; try lia; apply D.
Qed.

(** Pointing a live slot at an unreferenced cell. *)
Lemma inv_point h w g sp fr :
  Inv h w -> w_init w = true -> g_live (w_slots w g) = true -> sp < w_next w ->
  (forall g', g_stack (w_slots w g') <> Some sp) ->
  Inv h (set_slot w g (Slot true (Some sp) fr)).
Proof.
  intros I Hi Hl L F. constructor; simpl; intros; tri I.
  - unfold upd. destruct (g =? g0) eqn:E; [|apply I].
    apply Nat.eqb_eq in E; subst. simpl. rewrite <- Hl. apply I.
  - unfold upd in *. destruct (g =? g0) eqn:E.
    + apply Nat.eqb_eq in E; subst g0. simpl in *. injection H as <-. auto.
    + now apply (i_slot_lt _ _ I) in H.
  - unfold upd in *. destruct (g =? g1) eqn:Ea; destruct (g =? g2) eqn:Eb;
      try apply Nat.eqb_eq in Ea; try apply Nat.eqb_eq in Eb; subst; auto; simpl in *.
    + injection H as <-. exfalso. eapply F; eauto.
    + injection H0 as <-. exfalso. eapply F; eauto.
    + eapply (i_slot_inj _ _ I); eauto.
Qed.

Lemma inv_trace_begin h w g sink :
  Inv h w -> w_init w = true -> running h g = true ->
  Inv (OTraceBegin g sink :: h) (trace_begin w g sink).
Proof.
  intros I Hi Hg. apply inv_neutral; simpl; auto.
  assert (Hl : g_live (w_slots w g) = true) by (rewrite (i_live _ _ I); auto).
  unfold trace_begin. rewrite Hl. destruct (g_stack (w_slots w g)) as [sp|] eqn:Es.
  - destruct (s_tracing (w_heap w sp)).
    + apply inv_set_slot'; simpl; auto.
    + pose proof (i_slot_lt _ _ I _ _ Es) as (L & _).
      apply inv_set_slot'; simpl; auto.
      apply inv_set_heap; auto.
  - fold (alloc w (SObj empty_table true)).
    pose proof (inv_alloc _ _ true I) as I1.
    destruct sink.
    + apply inv_point; auto; simpl.
      intros g' H. apply (i_slot_lt _ _ I) in H. lia.
    + apply inv_set_slot'; simpl; auto.
Qed.

Lemma inv_step rs h w o w' r :
  Inv h w -> step rs w o = Some (w', r) -> Inv (o :: h) w'.
Proof.
  intros I H. destruct o; simpl in H.
  - destruct (w_init w) eqn:E; [discriminate|]. injection H as <- <-.
    now apply (inv_initdone _ _ I).
  - destruct (g_live (w_slots w g)) eqn:E; [|discriminate]. injection H as <- <-.
    apply inv_push; auto. rewrite <- (i_live _ _ I); auto.
  - destruct (nth_error (w_cancels w) c) as [cl|] eqn:E; [|discriminate].
    injection H as H. replace w' with (fst (cancel w c cl)) by now rewrite H.
    now apply inv_cancel.
  - destruct (g_live (w_slots w g)) eqn:E; [|discriminate].
    destruct (g_live (w_slots w s)) eqn:E'; simpl in H; [discriminate|].
    injection H as <- <-. rewrite (i_live _ _ I) in E, E'. now apply inv_go.
  - destruct (g_live (w_slots w g)) eqn:E; [|discriminate]. injection H as <- <-.
    apply inv_set_slot; simpl; auto.
  - destruct (g_live (w_slots w g)) eqn:E; [|discriminate].
    destruct (w_init w) eqn:Ei; simpl in H; [|discriminate]. injection H as <- <-.
    rewrite (i_live _ _ I) in E. now apply inv_trace_begin.
  - destruct (g_live (w_slots w g)) eqn:E; [|discriminate].
    destruct (g_frames (w_slots w g)) as [|b rest]; [discriminate|]. injection H as <- <-.
    unfold trace_end. apply inv_neutral; simpl; auto. apply inv_set_slot'; simpl; auto.
    destruct b; auto.
Qed.

Theorem run_inv rs h w : run rs h = Some w -> Inv h w.
Proof.
  revert w. induction h as [|o h IH]; simpl; intros w H.
  - injection H as <-. apply inv0.
  - destruct (run rs h) as [w1|] eqn:E; [|discriminate].
    destruct (step rs w1 o) as [[w2 r]|] eqn:Es; [|discriminate]. injection H as <-.
    eapply inv_step; eauto.
Qed.

(** ** Refinement of the history-level specification *)
Definition hsim (n : name) (a b : holder) : Prop :=
  h_id a = h_id b /\ h_beh a = h_beh b /\
  (h_want a = h_want b \/ (is_rec_name n = true /\ h_want a = None)).

Lemma hsim_refl n a : hsim n a a.
Proof. repeat split; auto. Qed.

Lemma without_sim n c a b :
  Forall2 (hsim n) a b -> Forall2 (hsim n) (without c a) (without c b).
Proof.
  induction 1 as [|x y a b S F IH]; simpl; auto.
  destruct S as (E & S). rewrite <- E.
  destruct (h_id x) eqn:Ex; simpl.
  - destruct (c =? n0); simpl; auto. constructor; auto. split; [congruence|auto].
  - constructor; auto. split; [congruence|auto].
Qed.

Lemma spec_want_none rs h g n r :
  In r (spec_local rs h g n) ->
  (forall w, bound n w = None) -> h_want r = None.
Proof.
  revert g r. induction h as [|o h IH]; intros g r H B; simpl in H; [tauto|].
  destruct o; simpl in H; eauto.
  - destruct (init_done h && (g0 =? g) && same_name n0 n); eauto.
    apply in_app_or in H as [H|[<-|[]]]; [eauto|simpl; rewrite bound_to_bound; apply B].
  - apply in_without in H as [H _]. eauto.
  - destruct (s =? g); eauto. destruct rs; [simpl in H; tauto|].
    apply in_map_iff in H as (x & <- & Hx). simpl. exact (IH _ _ Hx B).
  - destruct (g0 =? g); [simpl in H; tauto | eauto].
Qed.

Lemma local_slot_other w g sl g' n :
  g <> g' -> local_list (set_slot w g sl) g' n = local_list w g' n.
Proof. intro H. unfold local_list; simpl. rewrite upd_other; auto. Qed.

Lemma local_attach w g w1 sp g' n :
  (forall g2 sp', g_stack (w_slots w g2) = Some sp' -> sp' < w_next w) ->
  get_or_attach w g = (w1, sp) -> local_list w1 g' n = local_list w g' n.
Proof.
  intros L E. unfold get_or_attach in E. destruct (g_stack (w_slots w g)) eqn:Es;
    injection E as <- <-; auto.
  unfold local_list; simpl. destruct (Nat.eq_dec g g'); subst.
  - rewrite upd_same; simpl. rewrite upd_same, Es. reflexivity.
  - rewrite upd_other; auto. destruct (g_stack (w_slots w g')) eqn:E'; auto.
    apply L in E'. rewrite upd_other; auto. lia.
Qed.

(** The effect of each operation on the observable lists, for reachable worlds. *)
Lemma global_push h w g n want beh m : Inv h w ->
  w_global (push w g n want beh) m =
  if negb (w_init w) && name_eqb n m
  then w_global w m ++ [Holder (Some (pushes h)) (bound m want) beh] else w_global w m.
Proof.
  intro I. unfold push. destruct (w_init w) eqn:Ei; simpl.
  - unfold get_or_attach. destruct (g_stack (w_slots w g)); simpl; auto.
  - unfold tset. rewrite (i_ncl _ _ I). destruct (name_eqb n m) eqn:E; auto.
    apply name_eqb_eq in E; subst; auto.
Qed.

Lemma local_push h w g n want beh g' m : Inv h w ->
  local_list (push w g n want beh) g' m =
  if w_init w && (g =? g') && name_eqb n m
  then local_list w g' m ++ [Holder (Some (pushes h)) (bound m want) beh]
  else local_list w g' m.
Proof.
  intro I. unfold push. destruct (w_init w) eqn:Ei; simpl.
  - destruct (get_or_attach w g) as [w1 sp] eqn:Ea.
    assert (L : forall g2 sp', g_stack (w_slots w g2) = Some sp' -> sp' < w_next w).
    { intros g2 sp' H. now apply (i_slot_lt _ _ I) in H. }
    rewrite <- (local_attach _ _ _ _ g' m L Ea).
    assert (Hs : g_stack (w_slots w1 g) = Some sp).
    { unfold get_or_attach in Ea. destruct (g_stack (w_slots w g)) eqn:Es; injection Ea as <- <-; auto.
      simpl. now rewrite upd_same. }
    destruct (g =? g') eqn:Eg; simpl.
    + apply Nat.eqb_eq in Eg; subst g'. unfold local_list. simpl. rewrite Hs, upd_same. simpl.
      unfold tset. rewrite (i_ncl _ _ I). destruct (name_eqb n m) eqn:E; auto.
      apply name_eqb_eq in E; subst; auto.
    + unfold local_list. simpl. destruct (g_stack (w_slots w1 g')) eqn:E'; auto.
      rewrite upd_other; auto. intros ->. apply Nat.eqb_neq in Eg. apply Eg.
      (* injectivity of stacks in w1 *)
      unfold get_or_attach in Ea. destruct (g_stack (w_slots w g)) eqn:Es; injection Ea as <- <-.
      * eapply (i_slot_inj _ _ I); eauto.
      * simpl in E'. rewrite upd_other in E' by auto. apply L in E'. lia.
  - reflexivity.
Qed.

Lemma local_ids h w g n c : Inv h w -> In c (ids (local_list w g n)) ->
  exists sp, g_stack (w_slots w g) = Some sp /\ nth_error (w_cancels w) c = Some (Closure (HStack sp) n).
Proof.
  intros I H. unfold local_list in H. destruct (g_stack (w_slots w g)) eqn:E; [|simpl in H; tauto].
  exists n0. split; auto. apply in_ids in H as (x & Hx & Hc).
  eapply (i_heap_ids _ _ I); eauto. now apply (i_slot_lt _ _ I) in E.
Qed.

Lemma local_cancel h w c cl g n : Inv h w -> nth_error (w_cancels w) c = Some cl ->
  local_list (fst (cancel w c cl)) g n = without c (local_list w g n).
Proof.
  intros I H. rewrite (cancel_effect _ _ _ _ I H).
  assert (Id : ~ In c (ids (local_list w g n)) -> local_list w g n = without c (local_list w g n)).
  { intro X. now rewrite without_notin. }
  destruct cl as [[|sp] m]; simpl.
  - assert (X : ~ In c (ids (local_list w g n))).
    { intro X. apply (local_ids _ _ _ _ _ I) in X as (sp & _ & E). congruence. }
    destruct (w_init w); simpl; auto.
    destruct (existsb (is_id c) (w_global w m)); simpl; auto.
  - destruct (existsb (is_id c) (s_table (w_heap w sp) m)) eqn:Ex; simpl.
    + unfold local_list; simpl. destruct (g_stack (w_slots w g)) as [sp'|] eqn:Es; auto.
      destruct (Nat.eq_dec sp sp'); subst.
      * rewrite upd_same; simpl. unfold tset. destruct (name_eqb m n) eqn:E.
        -- apply name_eqb_eq in E; subst; auto.
        -- rewrite without_notin; auto. intro X. apply in_ids in X as (x & Hx & Hc).
           apply (i_heap_ids _ _ I) with (c := c) in Hx; auto.
           ++ rewrite Hx in H. injection H as ->. rewrite name_eqb_refl in E. discriminate.
           ++ now apply (i_slot_lt _ _ I) in Es.
      * rewrite upd_other; auto. rewrite without_notin; auto.
        intro X. apply in_ids in X as (x & Hx & Hc).
        apply (i_heap_ids _ _ I) with (c := c) in Hx; auto; [congruence|].
        now apply (i_slot_lt _ _ I) in Es.
    + apply Id. intro X. apply (local_ids _ _ _ _ _ I) in X as Y.
      destruct Y as (sp' & Es & E). rewrite E in H. injection H as -> ->.
      unfold local_list in X. rewrite Es in X. apply existsb_ids in X. congruence.
Qed.

Lemma global_cancel h w c cl n : Inv h w -> nth_error (w_cancels w) c = Some cl ->
  w_global (fst (cancel w c cl)) n =
  if w_init w then w_global w n else without c (w_global w n).
Proof.
  intros I H. rewrite (cancel_effect _ _ _ _ I H).
  destruct cl as [[|sp] m]; simpl.
  - destruct (w_init w); simpl; auto.
    assert (Nid : name_eqb m n = false -> without c (w_global w n) = w_global w n).
    { intro E. apply without_notin. intro X. apply in_ids in X as (x & Hx & Hc).
      apply (i_glob_ids _ _ I) with (c := c) in Hx; auto. rewrite Hx in H. injection H as ->.
      rewrite name_eqb_refl in E; discriminate. }
    destruct (existsb (is_id c) (w_global w m)) eqn:Ex; simpl.
    + unfold tset. destruct (name_eqb m n) eqn:E.
      * apply name_eqb_eq in E; subst; auto.
      * now rewrite Nid.
    + destruct (name_eqb m n) eqn:E.
      * apply name_eqb_eq in E; subst. rewrite without_notin; auto.
        intro X. apply existsb_ids in X. congruence.
      * now rewrite Nid.
  - destruct (i_cl _ _ I _ _ _ H) as (_ & Hi & _). rewrite Hi.
    destruct (existsb (is_id c) (s_table (w_heap w sp) m)); simpl; auto.
Qed.

Lemma go_global rs w g s n : w_global (go rs w g s) n = w_global w n.
Proof.
  unfold go. destruct rs; auto. destruct (negb (w_init w)); auto.
  destruct (g_stack (w_slots w g)); auto.
  unfold get_or_attach. destruct (g_stack _); simpl; auto.
Qed.

Lemma go_local rs h w g s g' n : Inv h w -> g <> s ->
  local_list (go rs w g s) g' n =
  if s =? g' then (if rs then [] else map (clone_holder n) (local_list w g n))
  else local_list w g' n.
Proof.
  intros I Hgs. unfold go.
  assert (B : forall X, (X = [] ) -> local_list (set_slot w s (Slot true None [])) g' n =
              if s =? g' then X else local_list w g' n).
  { intros X ->. unfold local_list at 1; simpl. destruct (s =? g') eqn:E.
    - apply Nat.eqb_eq in E; subst. now rewrite upd_same.
    - apply Nat.eqb_neq in E. rewrite upd_other; auto. }
  destruct rs; [now apply B|].
  destruct (w_init w) eqn:Ei; simpl.
  - destruct (g_stack (w_slots w g)) as [cur|] eqn:Ec.
    + unfold get_or_attach. simpl. rewrite upd_same. simpl.
      unfold local_list at 1; simpl.
      destruct (s =? g') eqn:E.
      * apply Nat.eqb_eq in E; subst. rewrite !upd_same. simpl. rewrite upd_same. simpl.
        unfold local_list. rewrite Ec. reflexivity.
      * apply Nat.eqb_neq in E. rewrite !upd_other; auto.
        unfold local_list. destruct (g_stack (w_slots w g')) eqn:E'; auto.
        apply (i_slot_lt _ _ I) in E'. rewrite !upd_other; auto; lia.
    + apply B. unfold local_list. now rewrite Ec.
  - apply B. unfold local_list. destruct (g_stack (w_slots w g)) eqn:E; auto.
    apply (i_slot_lt _ _ I) in E. destruct E as (_ & _ & E). congruence.
Qed.

Lemma local_ext w1 w2 g n :
  g_stack (w_slots w1 g) = g_stack (w_slots w2 g) ->
  (forall sp, g_stack (w_slots w1 g) = Some sp -> s_table (w_heap w1 sp) = s_table (w_heap w2 sp)) ->
  local_list w1 g n = local_list w2 g n.
Proof.
  unfold local_list. intros E H. rewrite <- E. destruct (g_stack (w_slots w1 g)) eqn:E'; auto.
  now rewrite H.
Qed.

(** Starting a trace changes no registration list. *)
Lemma trace_begin_local h w g sink g' n : Inv h w ->
  local_list (trace_begin w g sink) g' n = local_list w g' n.
Proof.
  intro I.
  assert (L : forall g2 sp', g_stack (w_slots w g2) = Some sp' -> sp' < w_next w).
  { intros g2 sp' H. now apply (i_slot_lt _ _ I) in H. }
  unfold trace_begin. destruct (g_stack (w_slots w g)) as [sp|] eqn:Es.
  - destruct (s_tracing (w_heap w sp)).
    + apply local_ext; simpl; auto. unfold upd. destruct (g =? g') eqn:E; auto.
      apply Nat.eqb_eq in E; subst. simpl. auto.
    + apply local_ext; simpl.
      * unfold upd. destruct (g =? g') eqn:E; auto. apply Nat.eqb_eq in E; subst. simpl. auto.
      * intros sp' _. unfold upd. destruct (sp =? sp') eqn:E; auto.
        apply Nat.eqb_eq in E; subst. reflexivity.
  - unfold local_list. destruct sink; simpl.
    + destruct (Nat.eq_dec g g'); subst.
      * rewrite upd_same. simpl. rewrite upd_same, Es. reflexivity.
      * rewrite upd_other; auto. destruct (g_stack (w_slots w g')) eqn:E; auto.
        apply L in E. rewrite upd_other; auto. lia.
    + destruct (Nat.eq_dec g g'); subst.
      * rewrite upd_same. simpl. rewrite Es. reflexivity.
      * rewrite upd_other; auto. destruct (g_stack (w_slots w g')) eqn:E; auto.
        apply L in E. rewrite upd_other; auto. lia.
Qed.

(** The end of a started trace empties the goroutine's own lists. *)
Lemma trace_end_local w g b rest g' n :
  local_list (trace_end w g b rest) g' n =
  if b && (g =? g') then [] else local_list w g' n.
Proof.
  unfold trace_end, local_list; simpl. unfold upd. destruct (g =? g') eqn:E; simpl.
  - apply Nat.eqb_eq in E; subst. destruct b; simpl; auto.
  - destruct b; auto.
Qed.

Lemma step_global rs h w o w' r : Inv h w -> step rs w o = Some (w', r) ->
  (forall n, w_global w n = spec_global h n) -> forall n, w_global w' n = spec_global (o :: h) n.
Proof.
  intros I H R n. destruct o; simpl in H |- *.
  - destruct (w_init w); [discriminate|]. injection H as <- <-. apply R.
  - destruct (g_live (w_slots w g)); [|discriminate]. injection H as <- <-.
    rewrite (global_push _ _ _ _ _ _ _ I), <- (i_init _ _ I), R, same_name_eqb. reflexivity.
  - destruct (nth_error (w_cancels w) c) as [cl|] eqn:E; [|discriminate].
    injection H as H. replace w' with (fst (cancel w c cl)) by now rewrite H.
    rewrite (global_cancel _ _ _ _ _ I E), <- (i_init _ _ I), R. reflexivity.
  - destruct (_ && _); [|discriminate]. injection H as <- <-. rewrite go_global. apply R.
  - destruct (g_live (w_slots w g)); [|discriminate]. injection H as <- <-. apply R.
  - destruct (_ && _); [|discriminate]. injection H as <- <-. rewrite <- R.
    unfold trace_begin. destruct (g_stack (w_slots w g)).
    + destruct (s_tracing (w_heap w n0)); reflexivity.
    + destruct sink; reflexivity.
  - destruct (g_live (w_slots w g)); [|discriminate].
    destruct (g_frames (w_slots w g)); [discriminate|]. injection H as <- <-. apply R.
Qed.

Theorem run_global rs h w : run rs h = Some w -> forall n, w_global w n = spec_global h n.
Proof.
  revert w. induction h as [|o h IH]; simpl run; intros w H.
  - injection H as <-. reflexivity.
  - destruct (run rs h) as [w1|] eqn:E; [|discriminate].
    destruct (step rs w1 o) as [[w2 r]|] eqn:Es; [|discriminate]. injection H as <-.
    eapply step_global; eauto. now apply run_inv with (rs := rs).
Qed.

Lemma clone_sim n a b :
  hsim n a b -> ((forall w, bound n w = None) -> h_want b = None) ->
  hsim n (clone_holder n a) (inherited b).
Proof.
  intros (E1 & E2 & E3) B. unfold hsim. destruct n; simpl in *; repeat split; auto;
    try (left; symmetry; apply B; reflexivity).
Qed.

Theorem run_local rs h w : run rs h = Some w -> trace_free h ->
  forall g n, Forall2 (hsim n) (local_list w g n) (spec_local rs h g n).
Proof.
  revert w. induction h as [|o h IH]; simpl run; intros w H T g n.
  - injection H as <-. unfold local_list; simpl. unfold upd. destruct (0 =? g); constructor.
  - inversion T as [|? ? To T']; subst.
    destruct (run rs h) as [w1|] eqn:E; [|discriminate].
    destruct (step rs w1 o) as [[w2 r]|] eqn:Es; [|discriminate]. injection H as <-.
    specialize (IH w1 eq_refl T'). pose proof (run_inv _ _ _ E) as I.
    destruct o; simpl in Es, To |- *; try discriminate.
    + destruct (w_init w1); [discriminate|]. injection Es as <- <-. apply IH.
    + destruct (g_live (w_slots w1 g0)) eqn:El; [|discriminate]. injection Es as <- <-.
      rewrite (local_push _ _ _ _ _ _ _ _ I), <- (i_init _ _ I), same_name_eqb.
      destruct (w_init w1 && (g0 =? g) && name_eqb n0 n); auto.
      apply Forall2_app; auto. constructor; [|constructor]. apply hsim_refl.
    + destruct (nth_error (w_cancels w1) c) as [cl|] eqn:Ec; [|discriminate].
      injection Es as H. replace w2 with (fst (cancel w1 c cl)) by now rewrite H.
      rewrite (local_cancel _ _ _ _ _ _ I Ec). now apply without_sim.
    + destruct (g_live (w_slots w1 g0)) eqn:E1; [|discriminate].
      destruct (g_live (w_slots w1 s)) eqn:E2; [discriminate|].
      simpl in Es. injection Es as <- <-.
      rewrite (go_local _ _ _ _ _ _ _ I) by congruence.
      destruct (s =? g); auto. destruct rs; [constructor|].
      specialize (IH g0 n).
      assert (W : forall b, In b (spec_local false h g0 n) -> (forall w, bound n w = None) -> h_want b = None).
      { intros b Hb. eapply spec_want_none; eauto. }
      revert W. induction IH as [|x y a b S F IHF]; simpl; intro W; constructor.
      * apply clone_sim; auto.
      * apply IHF. intros b0 Hb0. apply W; auto.
    + destruct (g_live (w_slots w1 g0)); [|discriminate]. injection Es as <- <-.
      destruct (g0 =? g) eqn:Eg.
      * apply Nat.eqb_eq in Eg; subst. unfold local_list. simpl. rewrite upd_same. constructor.
      * apply Nat.eqb_neq in Eg. rewrite local_slot_other; auto.
Qed.

Lemma sim_eq n a b : is_rec_name n = false -> Forall2 (hsim n) a b -> a = b.
Proof.
  intros R F. induction F as [|x y a b (E1 & E2 & E3) F IH]; auto.
  f_equal; auto. destruct x, y; simpl in *. destruct E3 as [E3|[E3 _]]; congruence.
Qed.

Theorem run_local_eq rs h w g n : run rs h = Some w -> trace_free h ->
  is_rec_name n = false -> local_list w g n = spec_local rs h g n.
Proof. intros H T R. eapply sim_eq; eauto. eapply run_local; eauto. Qed.

(** C01 *)
Lemma C01_lemma rs h w g n :
  run rs h = Some w -> trace_free h -> is_mock_name n = true ->
  last_mock w g n = spec_mock rs h g n.
Proof.
  intros H T M. unfold last_mock, spec_mock. rewrite newest_last.
  rewrite (run_local_eq _ _ _ _ _ H T) by (destruct n; simpl in *; congruence).
  rewrite (run_global _ _ _ H). destruct (spec_local rs h g n); reflexivity.
Qed.

Lemma handlers_app w g n : handlers w g n = local_list w g n ++ w_global w n.
Proof.
  unfold handlers. destruct (local_list w g n), (w_global w n); rewrite ?app_nil_r; reflexivity.
Qed.
