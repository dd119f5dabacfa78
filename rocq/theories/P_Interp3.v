(** Proofs about M_Interp, continued: the trace root, the export, C11. *)
From Coq Require Import List Arith Bool ZArith Lia.
From Verif Require Import M_Stack S_Stack P_Stack P_Stack2 P_Stack3 M_Interp S_Interp P_Interp P_Interp2.
Import ListNotations.

Lemma export_vt fuel : forall ps ts m gs, Forall2 (repr (heap m)) ps (map vt ts) -> csizes ts < fuel ->
  export_entries fuel ps (World m gs) [] = Some (World m gs, [], map show ts).
Proof.
  induction fuel as [|fuel IH]; intros ps ts m gs F L; [lia|].
  destruct ts as [|[f p cs] ts]; simpl in F; inversion F as [|q v ps' vs R F']; subst; clear F.
  - reflexivity.
  - apply repr_inv in R as (us & Lq & Fu & E). injection E as E1 E2 E3 E4 E5 E6. subst us.
    assert (L1 : csizes cs < fuel /\ csizes ts < fuel) by (unfold csizes in *; simpl in L; lia). destruct L1 as [L1 L2].
    cbn [export_entries env_step w_mem]. change (e_children (get (heap m) q)) with (P_Stack.ch (heap m) q).
    rewrite (IH _ cs m gs Fu L1). rewrite <- E5, <- E1, <- E2, <- E3, <- E4.
    rewrite (IH _ ts m gs F' L2). reflexivity.
Qed.

Section CInd.
  Variable Q : ctree -> Prop.
  Hypothesis H : forall f p ch, Forall Q ch -> Q (Call f p ch).
  Fixpoint ctree_ind' (t : ctree) : Q t :=
    match t with
    | Call f p ch => H f p ch ((fix all (l : list ctree) : Forall Q l :=
         match l with [] => Forall_nil Q | x :: r => Forall_cons x (ctree_ind' x) (all r) end) ch)
    end.
End CInd.

Lemma vheight_vt t : vheight (vt t) <= csize t.
Proof.
  induction t as [f p ch IH] using ctree_ind'. simpl. apply le_n_S.
  induction IH as [|c ch Hc IH IH2]; simpl; lia.
Qed.

(** The states in which a Trace starts a trace: not inside a handler, nothing
    attached or a stack that is not tracing and has never been used. *)
Definition ready (f : nat) (s : st) : Prop :=
  trapping s = 0 /\
  match cur s with
  | None => True
  | Some (k, d) => d_tracing d = false /\ d_filter d f = true /\ k < length (stacks (mm s)) /\
                   get_stack (mm s) k = new_stack
  end.

Definition has_local (s : st) : bool := match cur s with Some (_, d) => d_local d | None => false end.

Lemma trace_call n P pk f c s s' p : benign P -> p_trace P f = Some c -> c_sink c = true -> ready f s ->
  call_fn P (exec n P) pk f s = Some (s', p) ->
  exists ts, (if mocked P (has_local s) f then Some ([], false)
              else calls_flagged (p_body P) (mocked P (has_local s)) (c_filter c) n pk (p_body P f)) = Some (ts, p) /\
    exports (log s') = exports (log s) ++ [[show (Call f (pk || p) ts)]] /\
    cur s' = None /\ trapping s' = 0.
Proof.
  intros B Tc Sc [T0 Rd] H.
  pose proof (exec_inert n P B) as K. pose proof (benign_rec P n B) as B'.
  unfold call_fn, trap_fn in H.
  destruct (trap_body P (exec n P) pk f (inc s)) as [[s1 o]|] eqn:E; [|discriminate].
  assert (SN : start_of P f (inc s) = Some c).
  { unfold start_of. rewrite Tc. simpl. rewrite T0. simpl. destruct (cur s) as [[k d]|]; auto. destruct Rd as (-> & _). reflexivity. }
  apply trap_body_inv in E; auto; [|simpl; lia|rewrite SN; intros c0 X; injection X as <-; auto].
  (* the state after starting *)
  assert (SS : exists k d m, start_st P f (inc s) = St 1 (Some (k, d)) m (log s) /\ d_tracing d = true /\
     d_filter d f = true /\ d_local d = has_local s /\ k < length (stacks m) /\ get_stack m k = new_stack /\ heap m = heap (mm s)).
  { unfold start_st, has_local. rewrite SN. simpl. rewrite T0. destruct (cur s) as [[k d]|].
    - destruct Rd as (_ & Df & Lk & Nk). exists k, (SData true (d_filter d) (d_local d)), (mm s). split; [unfold set_cur, inc, set_trap; simpl; now rewrite T0|repeat split; auto].
    - eexists _, _, _. split; [reflexivity|]. repeat split; auto; simpl.
      + rewrite app_length. simpl. lia.
      + unfold get_stack. simpl. rewrite app_nth2, Nat.sub_diag by lia. reflexivity. }
  destruct SS as (k & d & m & SS & Dt & Df & Dl & Lk & Nk & Hm). rewrite SS in E.
  assert (MO : match the_mock P (St 1 (Some (k, d)) m (log s)) f with Some (_, ok) => ok | None => false end = mocked P (has_local s) f)
    by (erewrite the_mock_local by reflexivity; rewrite Dl; reflexivity).
  rewrite MO, SN in E. cbn [option_map] in E. rewrite Sc in E.
  destruct E as (s3 & ts & I3 & G & [(X & _)|(k' & d' & Cu' & _ & _ & _ & m' & e & old & PN & I & ->)]).
  { exfalso. destruct X as [X|[[X _]|(k' & d' & Cu' & X)]].
    - simpl in X. lia.
    - discriminate.
    - simpl in Cu'. rewrite Cu' in Rd. destruct Rd as (_ & Y & _). congruence. }
  simpl in Cu'. injection Cu' as <- <-. cbv zeta in I.
  destruct I3 as (M3 & C3 & X3 & T3). simpl in M3, C3, X3, T3. rewrite M3 in PN.
  unfold push_new in PN. rewrite Nk in PN. cbn [new_stack s_top s_maxid] in PN.
  injection PN as Em <- <-.
  destruct I as (M1 & C1 & X1 & T1). simpl in M1, C1, X1, T1.
  set (h := heap m) in *. set (e0 := Entry 1 0 f 0 false None None []) in *.
  set (d4 := SData (d_tracing d) (c_filter c) (d_local d)) in *.
  assert (TI1 : tracing_in k d4 (length h) (emit (EBody f) (dec s1))).
  { split; [exact C1|]. split; [exact Dt|]. split; [simpl; rewrite T1, T3; reflexivity|].
    cbn [mm emit dec set_trap]. rewrite M1, <- Em. cbn [stacks heap]. rewrite upd_length. split; [exact Lk|].
    split; [unfold get_stack; simpl; rewrite nth_upd_same by lia; reflexivity|].
    rewrite app_length. simpl. lia. }
  assert (B2 : exists s2 r2 ts2, (if mocked P (has_local s) f then Some (dec s1, false) else exec n P pk (p_body P f) (emit (EBody f) (dec s1))) = Some (s2, r2) /\
        (if mocked P (has_local s) f then Some ([], false) else calls_flagged (p_body P) (mocked P (has_local s)) (c_filter c) n pk (p_body P f)) = Some (ts2, r2) /\
        grows k (length h) (dec s1) s2 ts2).
  { assert (GE : grows k (length h) (dec s1) (emit (EBody f) (dec s1)) []) by (apply grows_inert, inert_emit; discriminate).
    destruct (mocked P (has_local s) f).
    - exists (dec s1), false, []. split; auto. split; auto. apply grows_inert, inert_refl.
    - destruct (exec n P pk (p_body P f) (emit (EBody f) (dec s1))) as [[s2 r2]|] eqn:E2; [|discriminate].
      destruct (exec_traces n P k d4 B _ _ _ _ _ _ TI1 E2) as (ts2 & S2 & G2).
      simpl in S2. rewrite Dl in S2.
      exists s2, r2, ts2. split; auto. split; auto. apply (grows_trans k _ _ (emit (EBody f) (dec s1)) s2 [] ts2); auto.
      destruct TI1 as (_ & _ & _ & _ & _ & L1). exact L1. }
  destruct B2 as (s2 & r2 & ts2 & E2 & S2 & G2). rewrite E2 in H. clear E2.
  cbn [post_fn] in H.
  destruct (run_posts (exec n P) (pk || r2) ts (inc s2)) as [[s4 r4]|] eqn:E4; [|discriminate].
  destruct (run_posts_inert _ _ _ K G _ _ _ (Nat.lt_0_succ _ : 0 < trapping (inc s2)) E4) as [(M4 & C4 & X4 & T4) ->].
  simpl in M4, C4, X4, T4.
  exists ts2.
  destruct G2 as [A2 Bx2 C2 D2 E2 F2 L2 H2 I2 (cs & J2 & K2 & R2)].
  cbn [mm dec set_trap] in *. rewrite M1, <- Em in D2, E2, F2, L2, H2, I2, J2, K2. cbn [heap stacks] in *.
  rewrite upd_length in D2.
  assert (Lh : length (h ++ [e0]) = S (length h)) by (rewrite app_length; simpl; lia).
  rewrite Lh in *.
  assert (ch0 : P_Stack.ch (h ++ [e0]) (length h) = []) by (unfold P_Stack.ch; rewrite get_app_mid; reflexivity).
  rewrite ch0, get_app_mid in J2. simpl in J2.
  unfold get_stack in F2; cbn [stacks] in F2. rewrite nth_upd_same in F2 by lia. cbn [s_roots] in F2.
  fold (get_stack m k) in F2. rewrite Nk in F2. cbn [s_roots new_stack app] in F2.
  rewrite M4 in H. set (m2 := mm s2) in *. set (h2 := heap m2) in *.
  set (mf := finish m2 k (length h) None true 0 (pk || r2)) in H.
  set (fe := fun e => Entry (e_id e) (e_parent e) (e_fn e) (e_args e) true (Some (0, pk || r2)) (e_go e) (e_children e)).
  assert (Hf : heap mf = upd h2 (length h) fe) by reflexivity.
  assert (Lf : length (heap mf) = length h2) by (rewrite Hf; apply upd_length).
  assert (Gf : forall q, q <> length h -> get (heap mf) q = get h2 q)
    by (intros q N; rewrite Hf; unfold get; apply nth_upd_other; auto).
  assert (Gf' : get (heap mf) (length h) = fe (get h2 (length h)))
    by (rewrite Hf; unfold get; apply nth_upd_same; lia).
  assert (X : Forall2 (repr (heap mf)) cs (map vt ts2)).
  { assert (Q : Forall (fun c => S (length h) <= c < length h2) cs) by now apply Forall_forall.
    clear -R2 Q I2 Gf Lf. clearbody mf. induction R2 as [|c v cs vs R FF IH]; [constructor|]. inversion Q; subst. constructor; auto.
    apply repr_frame with (h := h2) (Q := fun c => S (length h) <= c < length h2); auto.
    - intros q Qq Lq. cbv beta in Qq. split; [lia|]. apply Gf; lia.
    - intros q c' Qq Lq Ic. cbv beta in Qq. apply (I2 q c'); [lia|exact Ic]. }
  assert (Y : repr (heap mf) (length h) (vt (Call f (pk || r2) ts2))).
  { assert (Z : repr (heap mf) (length h) (V (e_fn (get (heap mf) (length h))) (e_args (get (heap mf) (length h)))
       (e_finished (get (heap mf) (length h))) (e_res (get (heap mf) (length h))) (e_go (get (heap mf) (length h))) (map vt ts2))).
    { constructor; [lia|]. rewrite Gf', J2. exact X. }
    rewrite Gf', J2 in Z. exact Z. }
  assert (Rf : s_roots (get_stack mf k) = [length h]).
  { unfold mf, finish, get_stack. cbn [stacks]. rewrite nth_upd_same by (rewrite D2; exact Lk). exact F2. }
  clear Hf. clearbody mf. clearbody h2.
  unfold export in H. cbn [env_step w_mem w_gs] in H. unfold snapshot in H.
  destruct (clone_entries (S (length (heap mf))) (heap mf) (s_roots (get_stack mf k))) as [h5 qs] eqn:Ecl.
  rewrite Rf in Ecl.
  assert (CR : Forall2 (repr h5) qs (map vt [Call f (pk || r2) ts2])).
  { eapply clone_repr; [exact Ecl| |].
    - constructor; [exact Y|constructor].
    - constructor; [|constructor]. eapply Nat.le_trans; [apply vheight_vt|]. simpl. fold (csizes ts2). lia. }
  cbn [snd] in H.
  rewrite (export_vt _ qs [Call f (pk || r2) ts2]) in H; auto.
  2:{ simpl. fold (csizes ts2). lia. }
  injection H as <- <-.
  split; [rewrite orb_false_r; exact S2|]. split; [|split].
  - simpl. rewrite exports_app. simpl. rewrite X4, Bx2. simpl. rewrite orb_false_r. congruence.
  - reflexivity.
  - simpl. rewrite T4. simpl. rewrite C2. simpl. rewrite T1, T3. reflexivity.
Qed.

(** ** From flagged trees to the call tree *)
Lemma no_call_quiet : forall x, has_call x = false -> quiet_defers x = true.
Proof.
  fix rec 1. intros [f| |b|b fin] H; simpl in *.
  - reflexivity.
  - reflexivity.
  - induction b as [|y b IH]; [reflexivity|]. simpl in *. apply orb_false_elim in H as [H1 H2]. rewrite (rec y H1). apply (IH H2).
  - apply orb_false_elim in H as [H H3]. rewrite H3, andb_true_r. clear H3.
    induction b as [|y b IH]; [reflexivity|]. simpl in *. apply orb_false_elim in H as [H1 H2]. rewrite (rec y H1). apply (IH H2).
Qed.
Lemma no_calls_quiet l : existsb has_call l = false -> forallb quiet_defers l = true.
Proof.
  induction l as [|y b IH]; auto. simpl in *. intros H. apply orb_false_elim in H as [H1 H2].
  rewrite (no_call_quiet y H1). auto.
Qed.

Section Spec.
  Variable body : nat -> list stmt.
  Variable replaced allowed : nat -> bool.

  Fixpoint unflag (t : ctree) : ctree := match t with Call f _ ch => Call f false (map unflag ch) end.

  Lemma flagged_unflag n : forall pk l,
    match calls_flagged body replaced allowed n pk l, calls body replaced allowed n l with
    | Some (ts, p), Some (ts', p') => p = p' /\ map unflag ts = map unflag ts'
    | None, None => True
    | _, _ => False
    end.
  Proof.
    induction n as [|n IH]; intros pk l; [exact I|]. cbn [calls_flagged calls].
    destruct l as [|x r]; [split; reflexivity|].
    set (a := match x with SCall f => _ | SPanic => _ | STry b => _ | SFinally b fin => _ end).
    set (b := match x with SCall f => match (if replaced f then Some ([], false) else calls body replaced allowed n (body f)) with _ => _ end
              | SPanic => _ | STry b => _ | SFinally b fin => _ end).
    assert (AB : match a, b with
      | Some (ts, p), Some (ts', p') => p = p' /\ map unflag ts = map unflag ts'
      | None, None => True
      | _, _ => False
      end).
    { unfold a, b. destruct x.
      - destruct (replaced f).
        + destruct (allowed f); split; reflexivity.
        + specialize (IH pk (body f)).
          destruct (calls_flagged body replaced allowed n pk (body f)) as [[ts p]|], (calls body replaced allowed n (body f)) as [[ts' p']|]; [|destruct IH|destruct IH|exact I].
          destruct IH as [-> E]. split; [reflexivity|]. destruct (allowed f); simpl; congruence.
      - split; reflexivity.
      - specialize (IH pk b0).
        destruct (calls_flagged body replaced allowed n pk b0) as [[ts p]|], (calls body replaced allowed n b0) as [[ts' p']|]; [|destruct IH|destruct IH|exact I].
        destruct IH as [-> E]. auto.
      - pose proof (IH pk b0) as IH1.
        destruct (calls_flagged body replaced allowed n pk b0) as [[ts p]|], (calls body replaced allowed n b0) as [[ts' p']|]; [|destruct IH1|destruct IH1|exact I].
        destruct IH1 as [-> E]. specialize (IH (pk || p') fin).
        destruct (calls_flagged body replaced allowed n (pk || p') fin) as [[us q]|], (calls body replaced allowed n fin) as [[us' q']|]; [|destruct IH|destruct IH|exact I].
        destruct IH as [-> E2]. split; [reflexivity|]. rewrite !map_app. congruence. }
    clearbody a b. destruct a as [[ts p]|], b as [[ts' p']|]; try tauto.
    destruct AB as [-> E]. destruct p'; auto. specialize (IH pk r).
    destruct (calls_flagged body replaced allowed n pk r) as [[us q]|], (calls body replaced allowed n r) as [[us' q']|]; [|destruct IH|destruct IH|exact I].
    destruct IH as [-> E2]. split; [reflexivity|]. rewrite !map_app. congruence.
  Qed.

  (** Statements without calls make no calls. *)
  Lemma no_call_flagged n : forall pk pk' l, existsb has_call l = false ->
    calls_flagged body replaced allowed n pk l = calls_flagged body replaced allowed n pk' l.
  Proof.
    induction n as [|n IH]; intros pk pk' l Q; [reflexivity|]. destruct l as [|x r]; [reflexivity|].
    cbn [calls_flagged]. simpl in Q. apply orb_false_elim in Q as [Qx Qr].
    rewrite (IH pk pk' r Qr). destruct x; simpl in Qx; try discriminate; auto.
    - now rewrite (IH pk pk' b Qx).
    - apply orb_false_elim in Qx as [Qb Qf]. rewrite (IH pk pk' b Qb).
      destruct (calls_flagged body replaced allowed n pk' b) as [[t1 p1]|]; auto. now rewrite (IH (pk || p1) (pk' || p1) fin Qf).
  Qed.

  Lemma flagged_exact n : (forall f, forallb quiet_defers (body f) = true) -> forall l, forallb quiet_defers l = true ->
    calls_flagged body replaced allowed n false l = calls body replaced allowed n l.
  Proof.
    intros QB. induction n as [|n IH]; intros l Q; [reflexivity|]. destruct l as [|x r]; [reflexivity|].
    cbn [calls_flagged calls]. simpl in Q. apply andb_prop in Q as [Qx Qr]. rewrite (IH r Qr).
    destruct x; auto.
    - now rewrite (IH (body f) (QB f)).
    - simpl in Qx. now rewrite (IH b Qx).
    - simpl in Qx. apply andb_prop in Qx as [Qb Qf]. apply negb_true_iff in Qf.
      rewrite (IH b Qb). destruct (calls body replaced allowed n b) as [[t1 p1]|]; auto.
      rewrite (no_call_flagged n _ false fin Qf).
      rewrite IH; auto. now apply no_calls_quiet.
  Qed.

  (** More fuel changes nothing. *)
  Lemma calls_mono n : forall m l r, n <= m -> calls body replaced allowed n l = Some r -> calls body replaced allowed m l = Some r.
  Proof.
    induction n as [|n IH]; intros m l r L H; [discriminate|]. destruct m as [|m]; [lia|]. assert (L' : n <= m) by lia.
    cbn [calls] in *. destruct l as [|x l]; [exact H|].
    match type of H with match ?a with _ => _ end = _ => destruct a as [[ts p]|] eqn:E; [|discriminate] end.
    match goal with |- match ?a with _ => _ end = _ => assert (E' : a = Some (ts, p)) end.
    { destruct x; auto.
      - destruct (replaced f); auto. destruct (calls body replaced allowed n (body f)) as [[t1 p1]|] eqn:E1; [|discriminate].
        now rewrite (IH m _ _ L' E1).
      - destruct (calls body replaced allowed n b) as [[t1 p1]|] eqn:E1; [|discriminate]. now rewrite (IH m _ _ L' E1).
      - destruct (calls body replaced allowed n b) as [[t1 p1]|] eqn:E1; [|discriminate]. rewrite (IH m _ _ L' E1).
        destruct (calls body replaced allowed n fin) as [[t2 p2]|] eqn:E2; [|discriminate]. now rewrite (IH m _ _ L' E2). }
    rewrite E'. destruct p; auto.
    destruct (calls body replaced allowed n l) as [[t1 p1]|] eqn:E1; [|discriminate]. now rewrite (IH m _ _ L' E1).
  Qed.
End Spec.

Lemma calls_agree body replaced allowed n m l a b : calls body replaced allowed n l = Some a ->
  calls body replaced allowed m l = Some b -> a = b.
Proof.
  intros A B. destruct (Nat.le_ge_cases n m) as [L|L].
  - apply (calls_mono _ _ _ _ _ _ _ L) in A. congruence.
  - apply (calls_mono _ _ _ _ _ _ _ L) in B. congruence.
Qed.

Lemma erase_show t t' : unflag t = unflag t' -> erase (show t) = erase (show t').
Proof.
  revert t'. induction t as [f p ch IH] using ctree_ind'. intros [f' p' ch'] E. simpl in E. injection E as -> E.
  simpl. f_equal. rewrite !map_map. revert ch' E. induction IH as [|c ch Hc IH IH2]; intros [|c' ch'] E; try discriminate; auto.
  simpl in E. injection E as E1 E2. simpl. f_equal; auto.
Qed.

Lemma trace_correct n P f c s s' p : benign P -> p_trace P f = Some c -> c_sink c = true -> ready f s ->
  exec n P false [SCall f] s = Some (s', p) ->
  exists ts m, (if mocked P (has_local s) f then Some ([], false)
              else calls (p_body P) (mocked P (has_local s)) (c_filter c) m (p_body P f)) = Some (ts, p) /\
   exists x, exports (log s') = exports (log s) ++ [[x]] /\ erase x = erase (show (Call f p ts)) /\
     ((forall g, forallb quiet_defers (p_body P g) = true) -> x = show (Call f p ts)).
Proof.
  intros B Tc Sc Rd H. destruct n as [|n]; [discriminate|]. cbn [exec] in H.
  destruct (call_fn P (exec n P) false f s) as [[s1 q]|] eqn:E; [|discriminate].
  assert (X : s' = s1 /\ p = q).
  { destruct q; [now injection H as <- <-|]. destruct n; [discriminate|]. now injection H as <- <-. }
  destruct X as [-> ->].
  destruct (trace_call n P false f c s s1 q B Tc Sc Rd E) as (ts & S1 & X1 & _).
  simpl in X1. destruct (mocked P (has_local s) f).
  - injection S1 as <- <-. exists [], 0. split; auto. eexists. split; [exact X1|]. split; auto.
  - pose proof (flagged_unflag (p_body P) (mocked P (has_local s)) (c_filter c) n false (p_body P f)) as U.
    rewrite S1 in U. destruct (calls (p_body P) (mocked P (has_local s)) (c_filter c) n (p_body P f)) as [[ts' q']|] eqn:E2; [|destruct U].
    destruct U as [<- U]. exists ts', n. split; auto. eexists. split; [exact X1|]. split.
    + apply (erase_show (Call f q ts) (Call f q ts')). simpl. now rewrite U.
    + intros Q. rewrite (flagged_exact _ _ _ n Q _ (Q f)) in S1. assert (ts = ts') by congruence. now subst.
Qed.

(** ** Several traces in a row *)
Lemma traces_correct P : benign P -> forall fs n s s' p,
  (forall f, In f fs -> exists c, p_trace P f = Some c /\ c_sink c = true) ->
  (forall f, In f fs -> ready f s) ->
  exec n P false (map (fun f => STry [SCall f]) fs) s = Some (s', p) ->
  p = false /\ exists xss, exports (log s') = exports (log s) ++ xss /\ traces_ok P (has_local s) fs xss.
Proof.
  intros B. induction fs as [|f fs IH]; intros n s s' p Tc Rd H.
  - destruct n; [discriminate|]. injection H as <- <-. split; auto. exists []. rewrite app_nil_r. split; auto. exact I.
  - destruct n as [|n]; [discriminate|]. cbn [exec map] in H.
    destruct (exec n P false [SCall f] s) as [[s1 q]|] eqn:E; [|discriminate].
    destruct (Tc f (or_introl eq_refl)) as (c & T1 & S1).
    pose proof (trace_correct n P f c s s1 q B T1 S1 (Rd f (or_introl eq_refl)) E) as (ts & m & C1 & x & X1 & E1 & Q1).
    assert (R1 : cur s1 = None /\ trapping s1 = 0).
    { destruct n as [|n]; [discriminate|]. cbn [exec] in E.
      destruct (call_fn P (exec n P) false f s) as [[s2 q2]|] eqn:E2; [|discriminate].
      destruct (trace_call n P false f c s s2 q2 B T1 S1 (Rd f (or_introl eq_refl)) E2) as (_ & _ & _ & A).
      destruct q2; [now injection E as <- _|]. destruct n; [discriminate|]. now injection E as <- _. }
    destruct R1 as [Cu1 T01].
    destruct (IH n s1 s' p) as (-> & xss & X2 & O2); auto.
    + intros g Ig. apply Tc. now right.
    + intros g Ig. split; auto. now rewrite Cu1.
    + split; auto. exists ([x] :: xss). split; [rewrite X2, X1, <- app_assoc; reflexivity|].
      split.
      * exists c, ts, q, m. split; auto. split; auto. exists x. auto.
      * unfold has_local in O2. rewrite Cu1 in O2. exact O2.
Qed.
