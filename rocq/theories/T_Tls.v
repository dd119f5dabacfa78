(** * Goroutine-local storage: C17 and the storage part of C18.
    Model: M_Tls; specification: S_Tls. *)
From Coq Require Import List Arith Bool Lia.
From Verif Require Import M_Tls S_Tls.
Import ListNotations.

Lemma key_eqb_eq a b : key_eqb a b = true <-> a = b.
Proof.
  destruct a, b; simpl; try (split; congruence). rewrite Nat.eqb_eq. split; congruence.
Qed.
Lemma key_eqb_refl k : key_eqb k k = true. Proof. now apply key_eqb_eq. Qed.
Lemma lookup_remove l k k' : lookup (remove l k) k' = if key_eqb k k' then None else lookup l k'.
Proof.
  induction l as [|[a v] l IH]; simpl; [now destruct (key_eqb k k')|].
  destruct (key_eqb a k) eqn:E; simpl.
  - apply key_eqb_eq in E. subst a. rewrite IH. destruct (key_eqb k k'); auto.
  - rewrite IH. destruct (key_eqb a k') eqn:E'; auto.
    apply key_eqb_eq in E'. subst a. destruct (key_eqb k k') eqn:E2; auto. apply key_eqb_eq in E2. subst. now rewrite key_eqb_refl in E.
Qed.
Lemma lookup_put l k v k' : lookup (put l k v) k' = if key_eqb k k' then Some v else lookup l k'.
Proof. unfold put. simpl. rewrite lookup_remove. now destruct (key_eqb k k'). Qed.

Lemma lookup_inherit ds : forall n parent child k,
  lookup (inherit_from n ds parent child) k =
  match k with
  | KTls i => if (n <=? i) && nth (i - n) ds false
              then match lookup parent (KTls i) with Some v => Some v | None => lookup child k end
              else lookup child k
  | KStack => lookup child k
  end.
Proof.
  induction ds as [|inh ds IH]; intros n parent child k.
  - cbn [inherit_from]. destruct k as [i|]; auto. replace (nth (i - n) [] false) with false by (now destruct (i - n)). now rewrite andb_false_r.
  - cbn [inherit_from]. rewrite IH. destruct k as [i|].
    + destruct (Nat.eq_dec i n) as [->|N].
      * rewrite Nat.sub_diag, Nat.leb_refl. replace (S n <=? n) with false by (symmetry; apply Nat.leb_gt; lia). cbn [andb nth].
        destruct inh; [|reflexivity]. destruct (lookup parent (KTls n)) as [v|]; [|reflexivity]. rewrite lookup_put, key_eqb_refl. reflexivity.
      * assert (O : lookup (if inh then match lookup parent (KTls n) with Some v => put child (KTls n) v | None => child end else child) (KTls i)
                    = lookup child (KTls i)).
        { destruct inh; auto. destruct (lookup parent (KTls n)); auto. rewrite lookup_put. simpl.
          destruct (Nat.eqb_spec n i); auto. congruence. }
        rewrite O. destruct (Nat.leb_spec n i).
        -- replace (S n <=? i) with true by (symmetry; apply Nat.leb_le; lia).
           replace (i - n) with (S (i - S n)) by lia. reflexivity.
        -- replace (S n <=? i) with false by (symmetry; apply Nat.leb_gt; lia). reflexivity.
    + destruct inh; auto. destruct (lookup parent (KTls n)); auto. rewrite lookup_put. reflexivity.
Qed.

Lemma lookup_inherit_stack fresh parent child k :
  lookup (inherit_stack fresh parent child) k =
  match k with
  | KStack => match lookup child KStack with Some v => Some v
              | None => match lookup parent KStack with Some _ => Some fresh | None => None end end
  | _ => lookup child k
  end.
Proof.
  unfold inherit_stack. destruct (lookup parent KStack).
  - destruct (lookup child KStack) eqn:E.
    + destruct k; auto.
    + rewrite lookup_put. destruct k; simpl; auto.
  - destruct k; auto. now destruct (lookup child KStack).
Qed.

Lemma upd_length {A} (l : list A) i f : length (upd l i f) = length l.
Proof. revert i. induction l; intros [|i]; simpl; auto. Qed.
Lemma nth_upd {A} (l : list A) i j f d : nth j (upd l i f) d = if (i =? j) && (j <? length l) then f (nth j l d) else nth j l d.
Proof.
  revert i j. induction l as [|x l IH]; intros [|i] [|j]; simpl; auto; [now rewrite andb_false_r|].
  rewrite IH. reflexivity.
Qed.

Lemma nth_decls_snoc ds inh n : nth n (ds ++ [inh]) false = if n =? length ds then inh else nth n ds false.
Proof.
  destruct (Nat.eqb_spec n (length ds)) as [->|N].
  - rewrite app_nth2, Nat.sub_diag by lia. reflexivity.
  - destruct (Nat.lt_ge_cases n (length ds)); [now rewrite app_nth1|].
    rewrite app_nth2 by lia. destruct (n - length ds) eqn:E; [lia|]. rewrite (nth_overflow ds) by lia. now destruct n0.
Qed.

Record sim (h : list op) (w : world) : Prop := {
  s_len : length (alive w) = length (slots w);
  s_decl : length (decls w) = declared h;
  s_inh : forall n, nth n (decls w) false = inheritable h n;
  s_live : forall g, is_alive w g = live h g;
  s_tls : forall g n, is_alive w g = true -> read w g n = tls_value h g n;
  s_stack : forall g, is_alive w g = true -> stack_of w g = attached h g;
  s_depth : forall g, is_alive w g = true -> depth_of w g = trapped h g
}.

Lemma alive_lt w g : is_alive w g = true -> g < length (alive w).
Proof. unfold is_alive. intros H. destruct (Nat.lt_ge_cases g (length (alive w))); auto. rewrite nth_overflow in H by lia. discriminate. Qed.

Lemma on_inv w g f w' : length (alive w) = length (slots w) -> on w g f = Some w' ->
  is_alive w g = true /\ alive w' = alive w /\ decls w' = decls w /\ length (slots w') = length (slots w) /\
  forall g', is_alive w g' = true -> nth g' (slots w') zero_g = if g =? g' then f (nth g' (slots w) zero_g) else nth g' (slots w) zero_g.
Proof.
  intros L H. unfold on in H. destruct (is_alive w g); [|discriminate]. injection H as <-. simpl.
  split; auto. split; auto. split; auto. split; [apply upd_length|]. intros g' A. rewrite nth_upd.
  apply alive_lt in A. rewrite L in A. apply Nat.ltb_lt in A. rewrite A, andb_true_r. reflexivity.
Qed.

Lemma step_sim h w o w' : sim h w -> step w o = Some w' -> sim (o :: h) w'.
Proof.
  intros [L D I V T S P] H.
  assert (LT : forall g, is_alive w g = true -> g < length (slots w)) by (intros g A; apply alive_lt in A; lia).
  destruct o as [inh|g n v|g v|g|g|g|parent slot fresh tf|g hook]; simpl in H.
  - injection H as <-. split; simpl; auto.
    + rewrite app_length. simpl. lia.
    + intros n. rewrite nth_decls_snoc, <- D. destruct (n =? length (decls w)); auto.
  - destruct (n <? length (decls w)); [|discriminate].
    apply on_inv in H as (A & E1 & E2 & E3 & N); auto. unfold read, stack_of, depth_of, is_alive in *.
    split; simpl; unfold read, stack_of, depth_of, is_alive.
    + now rewrite E1, E3.
    + now rewrite E2.
    + intros m. now rewrite E2.
    + intros g'. now rewrite E1.
    + intros g' m. rewrite E1. intros A'. rewrite (N g' A'). destruct (g =? g'); cbn [andb set_gls gls]; [|auto]. rewrite lookup_put. simpl. destruct (n =? m); auto.
    + intros g'. rewrite E1. intros A'. rewrite (N g' A'). destruct (g =? g'); cbn [andb set_gls gls]; [|auto]. rewrite lookup_put. simpl. auto.
    + intros g'. rewrite E1. intros A'. rewrite (N g' A'). destruct (g =? g'); simpl; auto.
  - destruct (lookup (gls (nth g (slots w) zero_g)) KStack) eqn:Z; [discriminate|].
    apply on_inv in H as (A & E1 & E2 & E3 & N); auto. unfold read, stack_of, depth_of, is_alive in *.
    split; simpl; unfold read, stack_of, depth_of, is_alive.
    + now rewrite E1, E3.
    + now rewrite E2.
    + intros m. now rewrite E2.
    + intros g'. now rewrite E1.
    + intros g' m. rewrite E1. intros A'. rewrite (N g' A'). destruct (g =? g'); cbn [andb set_gls gls]; [|auto]. rewrite lookup_put. simpl. auto.
    + intros g'. rewrite E1. intros A'. rewrite (N g' A'). destruct (g =? g'); simpl; [|auto]. reflexivity.
    + intros g'. rewrite E1. intros A'. rewrite (N g' A'). destruct (g =? g'); simpl; auto.
  - apply on_inv in H as (A & E1 & E2 & E3 & N); auto. unfold read, stack_of, depth_of, is_alive in *.
    split; simpl; unfold read, stack_of, depth_of, is_alive.
    + now rewrite E1, E3.
    + now rewrite E2.
    + intros m. now rewrite E2.
    + intros g'. now rewrite E1.
    + intros g' m. rewrite E1. intros A'. rewrite (N g' A'). destruct (g =? g'); cbn [andb set_gls gls]; [|auto]. rewrite lookup_remove. simpl. auto.
    + intros g'. rewrite E1. intros A'. rewrite (N g' A'). destruct (g =? g'); cbn [andb set_gls gls]; [|auto]. rewrite lookup_remove. reflexivity.
    + intros g'. rewrite E1. intros A'. rewrite (N g' A'). destruct (g =? g'); simpl; auto.
  - apply on_inv in H as (A & E1 & E2 & E3 & N); auto. unfold read, stack_of, depth_of, is_alive in *.
    split; simpl; unfold read, stack_of, depth_of, is_alive.
    + now rewrite E1, E3.
    + now rewrite E2.
    + intros m. now rewrite E2.
    + intros g'. now rewrite E1.
    + intros g' m. rewrite E1. intros A'. rewrite (N g' A'). destruct (g =? g'); simpl; auto.
    + intros g'. rewrite E1. intros A'. rewrite (N g' A'). destruct (g =? g'); simpl; auto.
    + intros g'. rewrite E1. intros A'. rewrite (N g' A'). destruct (g =? g'); simpl; auto.
  - apply on_inv in H as (A & E1 & E2 & E3 & N); auto. unfold read, stack_of, depth_of, is_alive in *.
    split; simpl; unfold read, stack_of, depth_of, is_alive.
    + now rewrite E1, E3.
    + now rewrite E2.
    + intros m. now rewrite E2.
    + intros g'. now rewrite E1.
    + intros g' m. rewrite E1. intros A'. rewrite (N g' A'). destruct (g =? g'); simpl; auto.
    + intros g'. rewrite E1. intros A'. rewrite (N g' A'). destruct (g =? g'); simpl; auto.
    + intros g'. rewrite E1. intros A'. rewrite (N g' A'). destruct (g =? g'); simpl; auto.
  - destruct (match parent with Some p => is_alive w p | None => true end) eqn:Ap; [|discriminate].
    destruct (is_alive w slot) eqn:As; [discriminate|]. cbn [andb negb] in H.
    set (c := create w parent fresh tf) in *.
    assert (C1 : forall n, lookup (gls c) (KTls n) = match parent with Some p => if inheritable h n then tls_value h p n else None | None => None end).
    { intros n. unfold c, create. destruct parent as [p|]; [|reflexivity]. simpl.
      specialize (T p n Ap). unfold read in T. rewrite <- I.
      destruct tf.
      - rewrite lookup_inherit_stack, lookup_inherit. simpl. rewrite Nat.sub_0_r. rewrite T. destruct (nth n (decls w) false); auto. now destruct (tls_value h p n).
      - rewrite lookup_inherit. simpl. rewrite Nat.sub_0_r, lookup_inherit_stack. rewrite T. simpl. destruct (nth n (decls w) false); auto. now destruct (tls_value h p n). }
    assert (C2 : lookup (gls c) KStack = match parent with Some p => match attached h p with Some _ => Some fresh | None => None end | None => None end).
    { unfold c, create. destruct parent as [p|]; [|reflexivity]. simpl. specialize (S p Ap). unfold stack_of in S.
      destruct tf.
      - rewrite lookup_inherit_stack, lookup_inherit. simpl. now rewrite S.
      - rewrite lookup_inherit, lookup_inherit_stack. simpl. now rewrite S. }
    assert (C3 : depth c = 0) by (unfold c, create; destruct parent; reflexivity).
    assert (N : forall g, nth g (slots w') zero_g = if slot =? g then c else nth g (slots w) zero_g).
    { destruct (slot <? length (slots w)) eqn:Sl; [|destruct (slot =? length (slots w)) eqn:Se; [|discriminate]]; injection H as <-; simpl; intros g.
      - rewrite nth_upd. apply Nat.ltb_lt in Sl. destruct (Nat.eqb_spec slot g) as [->|]; auto. now apply Nat.ltb_lt in Sl as ->.
      - apply Nat.eqb_eq in Se. subst slot. destruct (Nat.eqb_spec (length (slots w)) g) as [<-|N0].
        + rewrite app_nth2, Nat.sub_diag by lia. reflexivity.
        + destruct (Nat.lt_ge_cases g (length (slots w))); [now rewrite app_nth1|].
          rewrite app_nth2, (nth_overflow (slots w)) by lia. destruct (g - length (slots w)) eqn:E; [lia|]. now destruct n. }
    assert (N2 : forall g, is_alive w' g = (slot =? g) || is_alive w g).
    { unfold is_alive. destruct (slot <? length (slots w)) eqn:Sl; [|destruct (slot =? length (slots w)) eqn:Se; [|discriminate]]; injection H as <-; simpl; intros g.
      - rewrite nth_upd, L. apply Nat.ltb_lt in Sl. destruct (Nat.eqb_spec slot g) as [->|]; auto. now apply Nat.ltb_lt in Sl as ->.
      - apply Nat.eqb_eq in Se. subst slot. rewrite <- L. destruct (Nat.eqb_spec (length (alive w)) g) as [<-|N0].
        + rewrite app_nth2, Nat.sub_diag by lia. reflexivity.
        + destruct (Nat.lt_ge_cases g (length (alive w))); [now rewrite app_nth1|].
          rewrite app_nth2, (nth_overflow (alive w)) by lia. destruct (g - length (alive w)) eqn:E; [lia|]. now destruct n. }
    assert (Ds : decls w' = decls w /\ length (alive w') = length (slots w')).
    { destruct (slot <? length (slots w)); [|destruct (slot =? length (slots w)); [|discriminate]]; injection H as <-; simpl; split; auto; rewrite ?upd_length, ?app_length; auto; simpl; lia. }
    destruct Ds as [Ds L']. split; auto.
    + now rewrite Ds.
    + intros n. simpl; now rewrite Ds.
    + intros g. simpl. rewrite N2, V. reflexivity.
    + intros g n A. unfold read. rewrite N. simpl. rewrite N2 in A. destruct (slot =? g); auto. apply T. exact A.
    + intros g A. unfold stack_of. rewrite N. simpl. rewrite N2 in A. destruct (slot =? g); auto. apply S. exact A.
    + intros g A. unfold depth_of. rewrite N. simpl. rewrite N2 in A. destruct (slot =? g); auto. apply P. exact A.
  - destruct (is_alive w g) eqn:A; [|discriminate]. injection H as <-.
    assert (N2 : forall g', nth g' (upd (alive w) g (fun _ => false)) false = negb (g =? g') && nth g' (alive w) false).
    { intros g'. rewrite nth_upd. destruct (Nat.eqb_spec g g') as [->|]; simpl; auto. destruct (g' <? length (alive w)) eqn:E; auto.
      apply Nat.ltb_ge in E. now apply nth_overflow. }
    assert (N1 : forall g', g <> g' -> nth g' (if hook then upd (slots w) g (fun _ => zero_g) else slots w) zero_g = nth g' (slots w) zero_g).
    { intros g' N. destruct hook; auto. rewrite nth_upd. destruct (Nat.eqb_spec g g'); [contradiction|reflexivity]. }
    split; simpl; auto.
    + destruct hook; rewrite ?upd_length; auto.
    + intros g'. unfold is_alive in *. simpl. rewrite N2, V. reflexivity.
    + intros g' n A'. unfold is_alive, read in *. simpl in *. rewrite N2 in A'. apply andb_prop in A' as [A1 A2].
      rewrite N1; auto. intros ->. now rewrite Nat.eqb_refl in A1.
    + intros g' A'. unfold is_alive, stack_of in *. simpl in *. rewrite N2 in A'. apply andb_prop in A' as [A1 A2].
      rewrite N1; auto. intros ->. now rewrite Nat.eqb_refl in A1.
    + intros g' A'. unfold is_alive, depth_of in *. simpl in *. rewrite N2 in A'. apply andb_prop in A' as [A1 A2].
      rewrite N1; auto. intros ->. now rewrite Nat.eqb_refl in A1.
Qed.

Lemma run_sim ops : forall h w w', sim h w -> run ops w = Some w' -> sim (rev ops ++ h) w'.
Proof.
  induction ops as [|o ops IH]; simpl; intros h w w' S H; [now injection H as <-|].
  destruct (step w o) as [w1|] eqn:E; [|discriminate]. rewrite <- app_assoc. simpl. eapply IH; eauto. eapply step_sim; eauto.
Qed.
Lemma init_sim : sim [] init_world.
Proof.
  split; simpl; auto.
  - now intros [|n].
  - intros [|[|g]]; reflexivity.
  - intros [|[|g]] n; reflexivity.
  - intros [|[|g]]; reflexivity.
  - intros [|[|g]]; reflexivity.
Qed.

(** ** C17 *)
Theorem C17_tls_is_local :
  forall ops w, run ops init_world = Some w ->
    forall g n, is_alive w g = true -> read w g n = tls_value (rev ops) g n.
Proof.
  intros ops w H. apply run_sim with (h := []) in H; [|exact init_sim]. rewrite app_nil_r in H. apply H.
Qed.
Print Assumptions C17_tls_is_local.

(** Liveness is as the history says (so that the hypothesis above is not vacuous). *)
Theorem C17_live :
  forall ops w, run ops init_world = Some w -> forall g, is_alive w g = live (rev ops) g.
Proof.
  intros ops w H. apply run_sim with (h := []) in H; [|exact init_sim]. rewrite app_nil_r in H. apply H.
Qed.

(** In particular, nothing another goroutine does (other than creating g) is seen. *)
Definition actor (o : op) : option nat :=
  match o with
  | OSet g _ _ | OAttach g _ | ODetach g | OTrap g | OUntrap g | OExit g _ => Some g
  | OFork _ slot _ _ => Some slot
  | ODeclare _ => None
  end.
Theorem C17_others_do_not_show :
  forall ops w o w', run ops init_world = Some w -> step w o = Some w' ->
    forall g n, actor o <> Some g -> is_alive w g = true -> read w' g n = read w g n.
Proof.
  intros ops w o w' H E g n A L.
  assert (S1 : sim (rev ops) w) by (apply run_sim with (h := []) in H; [|exact init_sim]; now rewrite app_nil_r in H).
  pose proof (step_sim _ _ _ _ S1 E) as S2.
  assert (L' : is_alive w' g = true).
  { rewrite (s_live _ _ S2). rewrite (s_live _ _ S1) in L. destruct o; simpl in *; auto.
    - rewrite L. apply orb_true_r.
    - rewrite L, andb_true_r. destruct (Nat.eqb_spec g0 g); [congruence|reflexivity]. }
  rewrite (s_tls _ _ S2 g n L'), (s_tls _ _ S1 g n L). destruct o; simpl in *; auto.
  - destruct (Nat.eqb_spec g0 g); [congruence|reflexivity].
  - destruct (Nat.eqb_spec slot g); [congruence|reflexivity].
Qed.
Print Assumptions C17_others_do_not_show.

(** ** C18: whatever the previous owner of the slot left (even if its exit hook
    never ran), the new goroutine has depth 0, a fresh stack only if its creator
    has one, and no value other than the creator's inheritable ones. *)
Theorem C18_slot_reuse_leaks_no_storage :
  forall ops w parent slot fresh tf w', run ops init_world = Some w ->
    step w (OFork parent slot fresh tf) = Some w' ->
    depth_of w' slot = 0 /\
    (forall v, stack_of w' slot = Some v -> v = fresh /\ exists p s, parent = Some p /\ stack_of w p = Some s) /\
    (forall n v, read w' slot n = Some v -> exists p, parent = Some p /\ read w p n = Some v /\ nth n (decls w) false = true).
Proof.
  intros ops w parent slot fresh tf w' H E.
  assert (S1 : sim (rev ops) w) by (apply run_sim with (h := []) in H; [|exact init_sim]; now rewrite app_nil_r in H).
  pose proof (step_sim _ _ _ _ S1 E) as S2.
  assert (L' : is_alive w' slot = true) by (rewrite (s_live _ _ S2); simpl; now rewrite Nat.eqb_refl).
  assert (LP : forall p, parent = Some p -> is_alive w p = true).
  { intros p ->. simpl in E. destruct (is_alive w p); auto. discriminate. }
  rewrite (s_depth _ _ S2 slot L'), (s_stack _ _ S2 slot L'). simpl. rewrite Nat.eqb_refl. split; auto. split.
  - intros v Hv. destruct parent as [p|]; [|discriminate]. destruct (attached (rev ops) p) as [s|] eqn:Ea; [|discriminate].
    injection Hv as <-. split; auto. exists p, s. split; auto. rewrite (s_stack _ _ S1 p (LP p eq_refl)). exact Ea.
  - intros n v Hv. rewrite (s_tls _ _ S2 slot n L') in Hv. simpl in Hv. rewrite Nat.eqb_refl in Hv.
    destruct parent as [p|]; [|discriminate]. exists p. split; auto. rewrite (s_inh _ _ S1).
    destruct (inheritable (rev ops) n); [|discriminate]. split; auto. rewrite (s_tls _ _ S1 p n (LP p eq_refl)). exact Hv.
Qed.
Print Assumptions C18_slot_reuse_leaks_no_storage.

(** Non-trivial: an inheritable key 0, a plain key 1; goroutine 1 sets both, traps
    and exits without its hook; its slot is reused by a child of goroutine 0. *)
Definition tls_demo : list op :=
  [ODeclare true; ODeclare false; OSet 0 0 7; OSet 0 1 8; OFork (Some 0) 1 100 true; OSet 1 1 9; OTrap 1;
   OAttach 1 5; OSet 0 0 10; OExit 1 false; OFork (Some 0) 1 101 false].
Example C17_example :
  option_map (fun w => (read w 1 0, read w 1 1, read w 0 1, depth_of w 1, stack_of w 1)) (run tls_demo init_world)
  = Some (Some 10, None, Some 8, 0, None).
Proof. vm_compute. reflexivity. Qed.
