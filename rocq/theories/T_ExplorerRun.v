(** * C86, C88: the events of a run of the test explorer *)
From Coq Require Import Ascii String List Arith Bool Lia Permutation.
From Verif Require Import M_Str M_Explorer M_ExplorerRun T_Explorer2.
Import ListNotations.
Open Scope nat_scope. Open Scope list_scope.

(** ** Specification *)
(** An event as the page sees it if it is encoded while memory is [h]. *)
Record seen := { v_kind : ekind; v_item : option mitem; v_path : list bytes; v_status : bytes; v_msg : bytes }.
Definition view (h : heap) (e : event) : seen :=
  {| v_kind := e_kind e; v_item := e_item e; v_path := read h (e_path e); v_status := e_status e; v_msg := e_msg e |}.
Definition status_event (p : list bytes) (s m : bytes) : seen := {| v_kind := ItemStatus; v_item := None; v_path := p; v_status := s; v_msg := m |}.
(** The events of a run as they were when sent. *)
Definition sent (st : rstate) : list seen := map (fun eh => view (snd eh) (fst eh)) (r_log st).
(** An event is encoded some time after it was sent, when a poll has taken it: what it says must not change. *)
Definition unchanged (st : rstate) : Prop :=
  forall l1 e h l2, r_log st = l1 ++ (e, h) :: l2 -> view (r_heap st) e = view h e /\ forall e' h', In (e', h') l2 -> view h' e = view h e.
Definition path_dec (p q : list bytes) : {p = q} + {p <> q} := list_eq_dec (list_eq_dec ascii_dec) p q.
(** What the page shows for the item at [p]: the last status received; the items asked for are running. *)
Fixpoint last_status (p : list bytes) (l : list seen) : option bytes :=
  match l with
  | [] => None
  | v :: r => match last_status p r with
              | Some s => Some s
              | None => match v_kind v with ItemStatus => if path_dec (v_path v) p then match v_status v with [] => None | s => Some s end else None | _ => None end
              end
  end.
Definition shown (asked : list (list bytes)) (l : list seen) (p : list bytes) : option bytes :=
  match last_status p l with Some s => Some s | None => if in_dec path_dec p asked then Some #"running" else None end.
(** Not over yet. *)
Definition unfinished (s : bytes) : Prop := s = [] \/ s = #"running" \/ s = #"not_run".

(** ** Memory *)
Definition valid (h : heap) (s : slice) : Prop := s_arr s < length h /\ s_len s <= length (arr h s).
Definition frame (h h' : heap) : Prop := length h <= length h' /\ forall i, i < length h -> nth i h' [] = nth i h [].
(** Arrays but those of number n and later. *)
Definition keeps (n : nat) (h h' : heap) : Prop := length h <= length h' /\ (forall i, i < n -> nth i h' [] = nth i h []) /\ forall i, i < length h -> length (nth i h' []) = length (nth i h []).
Lemma frame_refl h : frame h h. Proof. split; auto. Qed.
Lemma frame_trans a b c : frame a b -> frame b c -> frame a c.
Proof. intros [A1 A2] [B1 B2]. split; [lia|]. intros i I. rewrite B2, A2; auto. lia. Qed.
Lemma frame_read h h' s : frame h h' -> valid h s -> read h' s = read h s.
Proof. intros [_ F] [V _]. unfold read, arr. now rewrite F. Qed.
Lemma frame_valid h h' s : frame h h' -> valid h s -> valid h' s.
Proof. intros [L F] [V W]. split; [lia|]. unfold arr in *. now rewrite F. Qed.
Lemma valid_len h s : valid h s -> length (read h s) = s_len s.
Proof. intros [_ V]. unfold read. rewrite firstn_length. lia. Qed.
Lemma alloc_spec h l n h' s : alloc h l n = (h', s) -> frame h h' /\ valid h' s /\ read h' s = l /\ s_arr s = length h /\ s_len s = length l.
Proof.
  unfold alloc. intros E. injection E as <- <-. cbn. assert (A : nth (length h) (h ++ [l ++ repeat [] n]) [] = l ++ repeat [] n) by (rewrite app_nth2, Nat.sub_diag by lia; reflexivity).
  split; [|split; [|split; [|auto]]].
  - split; [rewrite app_length; lia|]. intros i I. now rewrite app_nth1.
  - split; cbn; [rewrite app_length; cbn; lia|]. unfold arr. cbn. rewrite A, app_length. lia.
  - unfold read, arr. cbn. rewrite A, firstn_app, Nat.sub_diag, firstn_all. apply app_nil_r.
Qed.
Lemma set_arr_len h i a : i < length h -> length (set_arr h i a) = length h.
Proof. intros I. unfold set_arr. rewrite app_length, firstn_length. cbn [length]. rewrite skipn_length. lia. Qed.
Lemma set_arr_same h i a : i < length h -> nth i (set_arr h i a) [] = a.
Proof. intros I. unfold set_arr. rewrite app_nth2; rewrite firstn_length; [|lia]. replace (i - min i (length h)) with 0 by lia. reflexivity. Qed.
Lemma nth_firstn' {A} (l : list A) d : forall n i, i < n -> nth i (firstn n l) d = nth i l d.
Proof. induction l as [|x l IH]; intros [|n] [|i] I; try lia; auto. cbn. apply IH. lia. Qed.
Lemma nth_skipn' {A} (l : list A) d : forall n i, nth i (skipn n l) d = nth (n + i) l d.
Proof. induction l as [|x l IH]; intros [|n] i; auto. - destruct i; auto. - cbn. apply IH. Qed.
Lemma set_arr_other h i j a : i < length h -> i <> j -> nth j (set_arr h i a) [] = nth j h [].
Proof.
  intros I N. unfold set_arr. destruct (Nat.lt_ge_cases j i).
  - rewrite app_nth1 by (rewrite firstn_length; lia). apply nth_firstn'. lia.
  - rewrite app_nth2; rewrite firstn_length; [|lia]. replace (j - min i (length h)) with (S (j - i - 1)) by lia. cbn [nth]. rewrite nth_skipn'. f_equal. lia.
Qed.
Section Run.
Variable grow : nat -> nat -> nat.
Notation append := (append grow).
(** Appending in place leaves a slice of the same array as it is if what is written is there already, or beyond. *)
Definition agrees (h : heap) (s : slice) (xs : list bytes) (t : slice) : Prop :=
  exists w, read h t = firstn (s_len t) w /\ read h s ++ xs = firstn (s_len s + length xs) w.
Lemma append_spec h s xs h' s' : append h s xs = (h', s') -> valid h s ->
  valid h' s' /\ read h' s' = read h s ++ xs /\ s_len s' = s_len s + length xs /\ length h <= length h' /\
  (forall i, i < length h -> i <> s_arr s -> nth i h' [] = nth i h []) /\
  (forall i, i < length h -> length (nth i h' []) = length (nth i h [])) /\
  (s_arr s' = s_arr s \/ s_arr s' >= length h /\ frame h h') /\
  (forall t, valid h t -> s_arr t = s_arr s -> agrees h s xs t -> read h' t = read h t).
Proof.
  unfold M_ExplorerRun.append. cbv zeta. intros E [V W]. destruct (_ <=? _) eqn:C.
  - apply Nat.leb_le in C. injection E as <- <-. set (a := firstn (s_len s) (arr h s) ++ xs ++ skipn (s_len s + length xs) (arr h s)).
    assert (La : length a = length (arr h s)). { unfold a. rewrite !app_length, firstn_length, skipn_length. lia. }
    cbn [s_arr s_len]. repeat split; cbn [s_arr s_len].
    + now rewrite set_arr_len.
    + unfold arr. cbn [s_arr]. rewrite set_arr_same by auto. rewrite La. exact C.
    + unfold read, arr. cbn [s_arr s_len]. rewrite set_arr_same by auto. unfold a. rewrite app_assoc, firstn_app.
      replace (s_len s + length xs - length (firstn (s_len s) (arr h s) ++ xs)) with 0 by (rewrite app_length, firstn_length; lia). cbn [firstn]. rewrite app_nil_r. apply firstn_all2. rewrite app_length, firstn_length. lia.
    + rewrite set_arr_len; auto.
    + intros i I N. apply set_arr_other; [auto|congruence].
    + intros i I. destruct (Nat.eq_dec i (s_arr s)) as [->|N]; [rewrite set_arr_same by auto; exact La|rewrite set_arr_other; [auto|auto|congruence]].
    + now left.
    + intros t [Vt Wt] Et (w & A1 & A2). unfold read, arr in *. rewrite Et in *. rewrite set_arr_same by auto. unfold a, arr. clear La a. set (A := nth (s_arr s) h []) in *.
      apply nth_ext with (d := []) (d' := []); [rewrite !firstn_length, !app_length, firstn_length, skipn_length; lia|].
      rewrite firstn_length. intros n Hn. assert (Hn' : n < s_len t) by lia. clear Hn. rewrite !nth_firstn' by auto.
      rewrite app_assoc. destruct (Nat.lt_ge_cases n (s_len s + length xs)) as [L|L].
      * rewrite app_nth1 by (rewrite app_length, firstn_length; lia). rewrite A2, nth_firstn' by auto.
        transitivity (nth n (firstn (s_len t) A) []); [|now apply nth_firstn']. rewrite A1. symmetry. now apply nth_firstn'.
      * rewrite app_nth2; rewrite app_length, firstn_length; [|lia]. rewrite nth_skipn'. f_equal. lia.
  - apply Nat.leb_gt in C. destruct (alloc_spec _ _ _ _ _ E) as (F & V' & R & A & L). destruct F as [F1 F2].
    rewrite L, app_length, valid_len by (split; auto). repeat split; auto; try apply V'.
    + intros i I. now rewrite F2.
    + right. split; [lia|]. split; auto.
    + intros t [Vt _] Et _. unfold read, arr. now rewrite F2.
Qed.
Lemma agrees_short h s xs t : valid h s -> s_arr t = s_arr s -> s_len t <= s_len s -> agrees h s xs t.
Proof.
  intros [V W] E L. exists (read h s ++ xs). split.
  - unfold read, arr in *. rewrite E. rewrite firstn_app. replace (s_len t - _) with 0 by (rewrite firstn_length; lia). cbn [firstn]. rewrite app_nil_r, firstn_firstn. now rewrite Nat.min_l.
  - symmetry. apply firstn_all2. rewrite app_length, valid_len by (split; auto). lia.
Qed.
Lemma append_keeps h s xs h' s' n : append h s xs = (h', s') -> valid h s -> n <= s_arr s -> n <= length h -> keeps n h h'.
Proof. intros E V L L2. destruct (append_spec _ _ _ _ _ E V) as (_ & _ & _ & A & B & C & _). split; auto. split; auto. intros i I. apply B; lia. Qed.
Lemma keeps_frame h h' : keeps (length h) h h' -> frame h h'. Proof. intros (A & B & _). split; auto. Qed.
Lemma frame_keeps n h h' : n <= length h -> frame h h' -> keeps n h h'.
Proof. intros L [A B]. split; auto. split; intros i I; [apply B; lia|now rewrite B]. Qed.
Lemma keeps_trans n a b c : n <= length a -> keeps n a b -> keeps n b c -> keeps n a c.
Proof. intros L (A1 & A2 & A3) (B1 & B2 & B3). split; [lia|]. split; intros i I; [rewrite B2, A2; auto|]. rewrite B3, A3; auto. lia. Qed.
Lemma keeps_valid n h h' s : keeps n h h' -> valid h s -> valid h' s.
Proof. intros (A & _ & C) [V W]. split; [lia|]. unfold arr in *. now rewrite C. Qed.
Lemma other_read h h' t i : (forall j, j < length h -> j <> i -> nth j h' [] = nth j h []) -> valid h t -> s_arr t <> i -> read h' t = read h t.
Proof. intros H [V _] N. unfold read, arr. now rewrite H. Qed.
Lemma running_spec b B suffix n0 todo : forall i h h' es, running_events grow h b suffix todo i = (h', es) -> valid h b -> read h b = B -> n0 <= s_arr b -> i + todo <= length suffix ->
  keeps n0 h h' /\ (forall t, valid h t -> (s_arr t = s_arr b -> read h t = firstn (s_len t) (B ++ suffix)) -> read h' t = read h t) /\
  (forall t, valid h t -> valid h' t) /\
  (forall e, In e es -> valid h' (e_path e)) /\ map (view h') es = map (fun j => status_event (B ++ firstn (S j) suffix) status_running []) (seq i todo).
Proof.
  induction todo as [|todo IH]; intros i h h' es E V R N L; cbn [running_events seq map] in *.
  { injection E as <- <-. split; [split; [auto|split; auto]|]. split; auto. split; auto. split; [intros e []|reflexivity]. }
  destruct (append h b (firstn (S i) suffix)) as [h1 p] eqn:A. destruct (running_events grow h1 b suffix todo (S i)) as [h2 es'] eqn:Q. injection E as <- <-.
  pose proof (append_keeps _ _ _ _ _ n0 A V N ltac:(destruct V; lia)) as K1.
  destruct (append_spec _ _ _ _ _ A V) as (Vp & Rp & Lp & Le & Oth & Lens & Arr & Ag).
  assert (Lx : length (firstn (S i) suffix) = S i) by (rewrite firstn_length; lia).
  assert (LB : length B = s_len b) by (rewrite <- R; now apply valid_len).
  assert (W : read h b ++ firstn (S i) suffix = firstn (s_len b + length (firstn (S i) suffix)) (B ++ suffix)).
  { rewrite R, Lx, <- LB, firstn_app_2. reflexivity. }
  assert (Vb : valid h1 b) by (eapply keeps_valid; eauto).
  assert (Rb : read h1 b = B). { rewrite Ag; auto. now apply agrees_short. }
  destruct (IH _ _ _ _ Q Vb Rb N ltac:(lia)) as (K2 & P2 & V2 & E2 & M2).
  split; [|split; [|split; [|split]]].
  - eapply keeps_trans; eauto. destruct V; lia.
  - intros t Vt Ht. assert (R1 : read h1 t = read h t).
    { destruct (Nat.eq_dec (s_arr t) (s_arr b)) as [Et|Nt]; [apply Ag; auto; exists (B ++ suffix); auto|eapply other_read; eauto]. }
    rewrite <- R1. apply P2; [eapply keeps_valid; eauto|]. intros Et. rewrite R1. auto.
  - intros t Vt. apply V2. eapply keeps_valid; eauto.
  - intros e [<-|I]; [|now apply E2]. cbn. now apply V2.
  - cbn [map]. f_equal; [|exact M2]. unfold view. cbn. unfold status_event. f_equal. rewrite P2; auto; [now rewrite Rp, R|].
    intros _. rewrite Rp, Lp. exact W.
Qed.

(** What buildEvent makes, without memory. *)
Definition pure_test (h0_pm : pmap) (prefix : list bytes) (rel base : bytes) (suffix : list bytes) (test status out : bytes) : list seen :=
  let b := prefix ++ split_item_paths rel ++ [base] in
  match suffix with
  | [] => [status_event b status out]
  | _ => match pm_get h0_pm (b ++ suffix) with
         | Some _ => []
         | None => {| v_kind := MergeTree; v_item := Some {| m_base := base; m_rel := rel; m_chain := merge_chain (removelast suffix) base (last suffix [], test) |}; v_path := b; v_status := []; v_msg := [] |}
                   :: map (fun j => status_event (b ++ firstn (S j) suffix) status_running []) (seq 0 (length suffix))
         end ++ [status_event (b ++ suffix) status out; status_event b [] out]
  end.
Definition pure_build (prefix : list bytes) (mod_path : bytes) (resolve : bytes -> bytes -> option bytes) (pm : pmap) (t : test_event) : list seen :=
  let status := status_of_action (t_action t) in
  match t_package t with
  | [] => [status_event [] status (t_output t)]
  | _ => match t_test t with
         | [] => [status_event (prefix ++ split_item_paths (pkg_sub_path mod_path (t_package t))) status (t_output t)]
         | _ => let '(base, suffix) := match cut_first "/"%char (t_test t) with Some (b, s) => (b, split_item_paths s) | None => (t_test t, []) end in
                match resolve (t_package t) base with
                | None => [status_event [] status (t_output t)]
                | Some rel => pure_test pm prefix rel base suffix (t_test t) status (t_output t)
                end
         end
  end.
Definition heap_ok (h : heap) : Prop := 0 < length h /\ nth 0 h [] = [].
Lemma nil_valid h : heap_ok h -> valid h nil_slice /\ read h nil_slice = [].
Proof. intros [A B]. split; [split; cbn; [auto|lia]|]. reflexivity. Qed.
Lemma frame_ok h h' : frame h h' -> heap_ok h -> heap_ok h'.
Proof. intros [A B] [C D]. split; [lia|]. now rewrite B. Qed.
Lemma split_nonnil s : s <> [] -> exists x r, split_item_paths s = x :: r.
Proof. intros N. unfold split_item_paths. destruct s as [|c s]; [tauto|]. destruct (split "/"%char (c :: s)) eqn:E; eauto. exfalso. clear N. cbn in E. destruct (eqc c _); [discriminate E|]. destruct (split _ s); discriminate E. Qed.
Lemma case_path_spec h prefix rel name h' s : case_path grow h prefix rel name = (h', s) ->
  frame h h' /\ valid h' s /\ read h' s = prefix ++ split_item_paths rel ++ [name] /\ s_arr s >= length h /\ 0 < s_len s.
Proof.
  unfold case_path, append_copy. destruct (alloc h _ 0) as [h1 s1] eqn:A. intros E. destruct (alloc_spec _ _ _ _ _ A) as (F & V & R & Ar & Le).
  destruct (append_spec _ _ _ _ _ E V) as (Vp & Rp & Lp & Lh & Oth & Lens & Arr & _).
  assert (K : frame h h'). { apply keeps_frame. eapply keeps_trans; [lia|apply frame_keeps; [lia|exact F]|]. eapply append_keeps; eauto; [lia|destruct F; lia]. }
  split; auto. split; auto. split; [now rewrite Rp, R, <- app_assoc|]. split; [|rewrite Lp; cbn; lia]. destruct F. destruct Arr as [->|[]]; lia.
Qed.
Lemma build_event_spec prefix mod_path resolve h pm t h' es : build_event grow prefix mod_path resolve h pm t = (h', es) -> heap_ok h ->
  frame h h' /\ (forall e, In e es -> valid h' (e_path e)) /\ map (view h') es = pure_build prefix mod_path resolve pm t.
Proof.
  intros E H. unfold build_event, pure_build in *. destruct (nil_valid h H) as [Vn Rn].
  assert (Nil : forall out, (h, [] ++ [{| e_kind := ItemStatus; e_item := None; e_path := nil_slice; e_status := status_of_action (t_action t); e_msg := out |}]) = (h', es) ->
     frame h h' /\ (forall e, In e es -> valid h' (e_path e)) /\ map (view h') es = [status_event [] (status_of_action (t_action t)) out]).
  { intros out X. injection X as <- <-. split; [apply frame_refl|]. split; [intros e [<-|[]]; exact Vn|]. reflexivity. }
  destruct (t_package t) as [|pc pr] eqn:Ep; [now apply Nil|]. rewrite <- Ep in *. destruct (t_test t) as [|tc tr] eqn:Et.
  - unfold append_copy in E. destruct (alloc h _ 0) as [h1 p] eqn:A. destruct (alloc_spec _ _ _ _ _ A) as (F & V & R & Ar & Le). rewrite app_nil_r in R, Le.
    destruct (pkg_sub_path mod_path (t_package t)) as [|sc sr] eqn:Es.
    + injection E as <- <-. split; auto. split; [intros e [<-|[]]; exact V|]. unfold view. cbn. now rewrite R, app_nil_r.
    + destruct (append h1 p _) as [h2 q] eqn:A2. destruct (append_spec _ _ _ _ _ A2 V) as (Vq & Rq & _). cbn [app] in E. injection E as <- <-.
      split; [|split; [intros e [<-|[]]; exact Vq|unfold view; cbn [map e_kind e_item e_path e_status e_msg]; now rewrite Rq, R]].
      apply keeps_frame. eapply keeps_trans; [lia|apply frame_keeps; [lia|exact F]|]. eapply append_keeps; eauto; [lia|destruct F; lia].
  - rewrite <- Et in *. clear Et tc tr.
    destruct (match cut_first "/"%char (t_test t) with Some (b, s) => (b, s) | None => (t_test t, []) end) as [base tsuf] eqn:C.
    assert (C' : match cut_first "/"%char (t_test t) with Some (b, s) => (b, split_item_paths s) | None => (t_test t, []) end = (base, split_item_paths tsuf)).
    { destruct (cut_first "/"%char (t_test t)) as [[b s]|]; injection C as <- <-; reflexivity. }
    rewrite C'. clear C'. destruct (resolve (t_package t) base) as [rel|]; [|now apply Nil].
    destruct (case_path grow h prefix rel base) as [h1 p] eqn:A. destruct (case_path_spec _ _ _ _ _ _ A) as (F & V & R & Ar & Le).
    destruct tsuf as [|c0 s0] eqn:Ts.
    + cbn [app] in E. injection E as <- <-. split; auto. split; [intros e [<-|[]]; exact V|]. unfold view. cbn. now rewrite R.
    + rewrite <- Ts in *. assert (Tn : tsuf <> []) by (rewrite Ts; discriminate). clear Ts c0 s0. destruct (split_nonnil tsuf Tn) as (x & r & Sx).
      assert (Sp : split "/"%char tsuf = x :: r). { unfold split_item_paths in Sx. now destruct tsuf. }
      destruct tsuf as [|c0 s0]; [tauto|]. rewrite Sp in E. rewrite Sx. set (suffix := x :: r) in *.
      destruct (append h1 p suffix) as [h2 q] eqn:A2. destruct (append_spec _ _ _ _ _ A2 V) as (Vq & Rq & Lq & Lh & Oth & Lens & Arr & Ag).
      assert (K2 : keeps (length h) h1 h2) by (eapply append_keeps; eauto; destruct F; lia).
      assert (Vp2 : valid h2 p) by (eapply keeps_valid; eauto).
      assert (Rp2 : read h2 p = prefix ++ split_item_paths rel ++ [base]). { rewrite Ag; auto. apply agrees_short; auto. }
      assert (F2 : frame h h2). { apply keeps_frame. eapply keeps_trans; [lia|apply frame_keeps; [lia|exact F]|exact K2]. }
      assert (B : (0 <? s_len p) = true) by now apply Nat.ltb_lt.
      unfold pure_test. cbv zeta. fold suffix in E |- *. assert (Rq' : read h2 q = (prefix ++ split_item_paths rel ++ [base]) ++ suffix) by now rewrite Rq, R.
      rewrite Rq' in E. destruct (pm_get pm _).
      * cbn [app] in E. rewrite B in E. injection E as <- <-. split; auto. split; [intros e [<-|[<-|[]]]; auto|].
        unfold view. cbn [map e_kind e_item e_path e_status e_msg]. rewrite Rp2, Rq'. reflexivity.
      * destruct (running_events grow h2 p suffix (length suffix) 0) as [h3 es3] eqn:Q.
        destruct (running_spec p _ suffix (length h) _ _ _ _ _ Q Vp2 Rp2 ltac:(lia) ltac:(lia)) as (K3 & P3 & V3 & E3 & M3).
        rewrite B in E. injection E as <- <-.
        assert (Rp3 : read h3 p = prefix ++ split_item_paths rel ++ [base]).
        { rewrite P3; auto. intros _. rewrite Rp2. rewrite firstn_app. replace (s_len p - _) with 0 by (rewrite <- R, valid_len by auto; lia). cbn [firstn]. rewrite app_nil_r. symmetry. apply firstn_all2. rewrite <- R, valid_len by auto. lia. }
        assert (Rq3 : read h3 q = (prefix ++ split_item_paths rel ++ [base]) ++ suffix).
        { rewrite P3; auto. intros _. rewrite Rq'. symmetry. apply firstn_all2. rewrite <- Rq', valid_len by auto. lia. }
        split; [|split].
        -- apply keeps_frame. eapply keeps_trans; [lia|apply frame_keeps; [lia|exact F2]|exact K3].
        -- intros e I. cbn [app] in I. destruct I as [<-|I]; [now apply V3|]. apply in_app_or in I as [I|[<-|[<-|[]]]]; [now apply E3| |]; now apply V3.
        -- cbn [app map]. rewrite map_app, M3. cbn [map]. unfold view. cbn [e_kind e_item e_path e_status e_msg]. rewrite Rp3, Rq3. reflexivity.
Qed.

(** ** pathMapping *)
Section PmInd.
Variable P : pmap -> Prop.
Hypothesis H : forall r m, Forall (fun kv => P (snd kv)) m -> P (PM r m).
Fixpoint pmap_ind' (t : pmap) : P t :=
  match t with PM r m => H r m ((fix go (l : list (bytes * pmap)) : Forall (fun kv => P (snd kv)) l := match l with [] => Forall_nil _ | kv :: l' => @Forall_cons _ (fun kv => P (snd kv)) kv l' (pmap_ind' (snd kv)) (go l') end) m) end.
End PmInd.
Lemma find_set m k v k' : find_key (set_key m k v) k' = if eqs k k' then Some v else find_key m k'.
Proof.
  induction m as [|[k1 v1] m IH]; cbn; [now destruct (eqs k k')|]. destruct (eqs k1 k) eqn:E.
  - apply eqs_eq in E. subst. cbn. now destruct (eqs k k').
  - cbn. rewrite IH. destruct (eqs k1 k') eqn:E1; auto. destruct (eqs k k') eqn:E2; auto. apply eqs_eq in E1, E2. subst. rewrite eqs_refl in E. discriminate E.
Qed.
Lemma pm0_get p : pm_get pm0 p = None. Proof. now destruct p. Qed.
Lemma get_set p : forall c q s, pm_get (pm_set c p s) q = if path_dec p q then Some s else pm_get c q.
Proof.
  induction p as [|k p IH]; intros c q s.
  - destruct q as [|k' q]; reflexivity.
  - destruct q as [|k' q]; [reflexivity|]. cbn [pm_set pm_get pm_sub]. rewrite find_set. destruct (eqs k k') eqn:E.
    + apply eqs_eq in E. subst k'. rewrite IH. destruct (path_dec p q) as [->|N]; destruct (path_dec (k :: _) (k :: q)) as [X|X]; try congruence; auto.
      destruct (find_key (pm_sub c) k); auto. apply pm0_get.
    + destruct (path_dec (k :: p) (k' :: q)) as [X|X]; auto. injection X as <- _. rewrite eqs_refl in E. discriminate E.
Qed.
Inductive wf : pmap -> Prop := wf_pm r m : NoDup (map fst m) -> Forall (fun kv => wf (snd kv)) m -> wf (PM r m).
Lemma set_key_keys m k v : forall x, In x (map fst (set_key m k v)) <-> x = k \/ In x (map fst m).
Proof.
  induction m as [|[k1 v1] m IH]; intros x; cbn; [intuition|]. destruct (eqs k1 k) eqn:E; cbn; [apply eqs_eq in E; subst; intuition|]. rewrite IH. intuition.
Qed.
Lemma find_In m k v : find_key m k = Some v -> In (k, v) m.
Proof. induction m as [|[k1 v1] m IH]; cbn; [discriminate|]. destruct (eqs k1 k) eqn:E; [|auto]. apply eqs_eq in E. intros X. injection X as <-. subst. now left. Qed.
Lemma find_NoDup m k v : NoDup (map fst m) -> In (k, v) m -> find_key m k = Some v.
Proof.
  induction m as [|[k1 v1] m IH]; cbn; [intros _ []|]. intros N [X|X].
  - injection X as <- <-. now rewrite eqs_refl.
  - apply NoDup_cons_iff in N as [N1 N2]. destruct (eqs k1 k) eqn:E; auto. apply eqs_eq in E. subst. exfalso. apply N1. change k with (fst (k, v)). now apply in_map.
Qed.
Lemma wf_set p : forall c s, wf c -> wf (pm_set c p s).
Proof.
  induction p as [|k p IH]; intros c s W; destruct W as [r m N F]; cbn [pm_set pm_sub pm_record]; constructor; auto.
  - induction m as [|[k1 v1] m IHm]; cbn; [constructor; [intros []|constructor]|]. cbn in N. apply NoDup_cons_iff in N as [N1 N2]. inversion F; subst. destruct (eqs k1 k) eqn:E; cbn.
    + constructor; auto.
    + constructor; [rewrite set_key_keys; intros [->|X]; [rewrite eqs_refl in E; discriminate E|auto]|].
      specialize (IHm N2 ltac:(assumption)). exact IHm.
  - assert (W : wf (pm_set match find_key m k with Some sub => sub | None => pm0 end p s)).
    { apply IH. destruct (find_key m k) eqn:E; [|constructor; constructor]. apply find_In in E. rewrite Forall_forall in F. apply (F _ E). }
    set (v := pm_set _ p s) in *. clearbody v. clear N. induction F as [|[k1 v1] m F1 F IHF]; cbn; [constructor; [exact W|constructor]|]. destruct (eqs k1 k); constructor; auto.
Qed.
Fixpoint rec_paths (t : pmap) (node : list bytes) : list (list bytes) :=
  match t with PM r m => match r with Some _ => [node] | None => [] end ++ flat_map (fun kv => rec_paths (snd kv) (node ++ [fst kv])) m end.
Lemma rec_paths_In t : wf t -> forall node p, In p (rec_paths t node) <-> exists q, p = node ++ q /\ pm_get t q <> None.
Proof.
  induction t as [r m IH] using pmap_ind'. intros W node p. inversion W as [r' m' N F]; subst. cbn [rec_paths]. rewrite in_app_iff, in_flat_map. rewrite Forall_forall in IH, F. split.
  - intros [I|((k & v) & I & J)].
    + destruct r as [s|]; [|destruct I]. destruct I as [<-|[]]. exists []. rewrite app_nil_r. split; auto. discriminate.
    + apply (IH _ I (F _ I)) in J as (q & -> & G). exists (k :: q). cbn [fst]. rewrite <- app_assoc. split; auto. cbn [pm_get pm_sub]. now rewrite (find_NoDup _ _ _ N I).
  - intros (q & -> & G). destruct q as [|k q].
    + left. cbn in G. destruct r; [|tauto]. rewrite app_nil_r. now left.
    + right. cbn [pm_get pm_sub] in G. destruct (find_key m k) as [v|] eqn:E; [|tauto]. apply find_In in E. exists (k, v). split; auto. apply (IH _ E (F _ E)). exists q. cbn [fst]. now rewrite <- app_assoc.
Qed.
Lemma rec_paths_NoDup t : wf t -> forall node, NoDup (rec_paths t node).
Proof.
  induction t as [r m IH] using pmap_ind'. intros W node. inversion W as [r' m' N F]; subst. cbn [rec_paths].
  assert (A : NoDup (flat_map (fun kv => rec_paths (snd kv) (node ++ [fst kv])) m)).
  { clear W. induction m as [|[k v] m IHm]; cbn [flat_map]; [constructor|]. cbn in N. apply NoDup_cons_iff in N as [N1 N2]. inversion F as [|? ? F1 F2]; subst. inversion IH as [|? ? I1 I2]; subst. specialize (IHm I2 N2 F2). cbn [snd fst] in *.
    assert (D : forall p, In p (rec_paths v (node ++ [k])) -> ~ In p (flat_map (fun kv => rec_paths (snd kv) (node ++ [fst kv])) m)).
    { intros p I J. apply (rec_paths_In _ F1) in I as (q & -> & _). apply in_flat_map in J as ((k' & v') & J & K). rewrite Forall_forall in F2. apply (rec_paths_In _ (F2 _ J)) in K as (q' & E & _). cbn [fst] in E.
      rewrite <- !app_assoc in E. apply app_inv_head in E. injection E as <- _. apply N1. change k with (fst (k, v')). now apply in_map. }
    specialize (I1 F1 (node ++ [k])). clear -IHm D I1. induction (rec_paths v (node ++ [k])) as [|p l IHl]; auto. cbn. inversion I1; subst. constructor; [rewrite in_app_iff; intros [X|X]; [auto|apply (D p); auto; now left]|apply IHl; auto; intros; apply D; now right]. }
  destruct r; cbn; auto. constructor; auto. intros I. apply in_flat_map in I as ((k & v) & I & J). rewrite Forall_forall in F. apply (rec_paths_In _ (F _ I)) in J as (q & E & _). cbn [fst] in E. rewrite <- app_assoc in E.
  rewrite <- (app_nil_r node) in E at 1. apply app_inv_head in E. discriminate E.
Qed.
Lemma find_perm m m' k : Permutation m m' -> NoDup (map fst m) -> find_key m k = find_key m' k.
Proof.
  intros P N. assert (N' : NoDup (map fst m')) by (eapply Permutation_NoDup; [apply Permutation_map; exact P|exact N]).
  destruct (find_key m k) as [v|] eqn:E.
  - symmetry. apply find_NoDup; auto. eapply Permutation_in; [exact P|]. now apply find_In.
  - destruct (find_key m' k) as [v|] eqn:E'; auto. apply find_In in E'. apply (Permutation_in _ (Permutation_sym P)) in E'. apply (find_NoDup _ _ _ N) in E'. congruence.
Qed.
Lemma reordered_same c : forall t, reordered c t -> wf c -> wf t /\ forall p, pm_get t p = pm_get c p.
Proof.
  induction c as [r m IH] using pmap_ind'. intros t R W. inversion R as [r' m' m1 m2 F P]; subst. inversion W as [r' m' N Fw]; subst.
  assert (Keys : map fst m1 = map fst m). { clear -F. induction F as [|[k v] [k' v'] m m1 [E _] F IHF]; cbn in *; congruence. }
  assert (N1 : NoDup (map fst m1)) by now rewrite Keys.
  assert (A : Forall (fun kv => wf (snd kv)) m1 /\ forall k q, match find_key m1 k with Some v => pm_get v q | None => None end = match find_key m k with Some v => pm_get v q | None => None end).
  { clear -F IH Fw. induction F as [|[k v] [k' v'] m m1 [E Rv] F IHF]; [split; auto|]. cbn in E. subst k'. inversion IH as [|? ? I1 I2]; subst. inversion Fw as [|? ? W1 W2]; subst. destruct (IHF I2 W2) as [A1 A2]. cbn [snd] in *. destruct (I1 _ Rv W1) as [B1 B2].
    split; [constructor; auto|]. intros k' q. cbn. destruct (eqs k k'); auto. }
  destruct A as [A1 A2]. split.
  - constructor; [eapply Permutation_NoDup; [apply Permutation_map; exact P|exact N1]|]. rewrite Forall_forall in *. intros kv I. apply A1. now apply (Permutation_in _ (Permutation_sym P)).
  - intros [|k p]; auto. cbn [pm_get pm_sub]. rewrite <- (find_perm _ _ k P N1). apply A2.
Qed.

(** ** Sending *)
Lemma last_status_app p l v : last_status p (l ++ [v]) = match last_status p [v] with Some s => Some s | None => last_status p l end.
Proof. induction l as [|x l IH]; cbn [app]; [now destruct (last_status p [v])|]. cbn [last_status]. rewrite IH. cbn [last_status]. destruct (match v_kind v with ItemStatus => _ | _ => None end); auto. Qed.
Section Asked.
Variable asked : list (list bytes).
Record inv (st : rstate) : Prop := {
  i_heap : heap_ok (r_heap st);
  i_valid : forall e h, In (e, h) (r_log st) -> valid (r_heap st) (e_path e);
  i_unch : unchanged st;
  i_wf : wf (r_pm st);
  i_pm : forall p, pm_get (r_pm st) p = shown asked (sent st) p }.
Lemma view_eq h h' e : read h' (e_path e) = read h (e_path e) -> view h' e = view h e.
Proof. unfold view. now intros ->. Qed.
(** Memory changes, and no event sent does. *)
Lemma inv_heap st h : inv st -> heap_ok h -> (forall e h0, In (e, h0) (r_log st) -> valid h (e_path e) /\ read h (e_path e) = read (r_heap st) (e_path e)) -> inv (with_heap st h).
Proof.
  intros [A B C D E] H F. constructor; cbn; auto.
  - intros e h0 I. now apply (F e h0).
  - intros l1 e h0 l2 L. cbn in *. destruct (C l1 e h0 l2 L) as [C1 C2]. split; auto. rewrite <- C1. apply view_eq. apply (F e h0). rewrite L. apply in_or_app. right. now left.
Qed.
Lemma inv_frame st h : inv st -> frame (r_heap st) h -> inv (with_heap st h).
Proof.
  intros I F. apply inv_heap; auto; [eapply frame_ok; eauto; apply I|]. intros e h0 J. pose proof (i_valid _ I _ _ J) as V. split; [eapply frame_valid; eauto|eapply frame_read; eauto].
Qed.
Lemma sent_send st e : sent (send st e) = sent st ++ [view (r_heap st) e].
Proof. unfold sent. cbn [send r_log]. now rewrite map_app. Qed.
Lemma inv_send st e : inv st -> valid (r_heap st) (e_path e) -> inv (send st e).
Proof.
  intros [A B C D E] V. constructor; cbn [send r_heap r_log r_pm]; auto.
  - intros e0 h I. apply in_app_or in I as [I|[I|[]]]; [eauto|]. injection I as <- <-. exact V.
  - intros l1 e0 h l2 L. cbn [send r_log r_heap] in *. destruct (exists_last (l := (e0, h) :: l2)) as (l2' & x & E2); [discriminate|].
    rewrite E2 in L. rewrite app_assoc in L. apply app_inj_tail in L as [L X]. subst x. destruct l2' as [|y l2'].
    + cbn in E2. injection E2 as E3 E4. subst. split; auto. intros e' h' [].
    + cbn in E2. injection E2 as E3 E4. subst y l2. destruct (C l1 e0 h l2' L) as [C1 C2]. split; auto. intros e' h' I. apply in_app_or in I as [I|[I|[]]]; [eauto|]. injection I as <- <-. exact C1.
  - destruct (e_kind e); auto. destruct (e_status e); auto. now apply wf_set.
  - intros p. rewrite sent_send. unfold shown. rewrite last_status_app. cbn [last_status view v_kind v_path v_status]. specialize (E p). unfold shown in E. destruct (e_kind e); auto.
    destruct (e_status e) eqn:Es; [destruct (path_dec (read (r_heap st) (e_path e)) p); auto|]. rewrite get_set. destruct (path_dec (read (r_heap st) (e_path e)) p); auto.
Qed.
Lemma inv_send_all es : forall st, inv st -> (forall e, In e es -> valid (r_heap st) (e_path e)) -> inv (send_all st es) /\ r_heap (send_all st es) = r_heap st.
Proof.
  induction es as [|e es IH]; intros st I V; [auto|]. cbn [send_all fold_left]. destruct (IH (send st e)) as [A B]; [apply inv_send; auto; apply V; now left|intros e' J; apply V; now right|]. split; auto.
Qed.
Definition good_build (build : heap -> pmap -> bytes -> built) (root : slice) : Prop :=
  forall h pm line h' es, heap_ok h -> valid h root -> build h pm line = BOk h' es -> frame h h' /\ forall e, In e es -> valid h' (e_path e).
Lemma consume_inv build root lines : good_build build root -> forall st st', inv st -> valid (r_heap st) root -> consume build root st lines = CEof st' -> inv st' /\ frame (r_heap st) (r_heap st').
Proof.
  intros G. induction lines as [|l lines IH]; intros st st' I V E; cbn [consume] in E; [injection E as <-; split; auto; apply frame_refl|].
  destruct (build (r_heap st) (r_pm st) l) as [h es|msg|] eqn:B; try discriminate E. destruct (G _ _ _ _ _ (i_heap _ I) V B) as [F Ve].
  destruct (inv_send_all es (with_heap st h)) as [I1 H1]; [now apply inv_frame|exact Ve|]. cbn [with_heap r_heap] in H1.
  assert (Vr : valid (r_heap (send_all (with_heap st h) es)) root) by (rewrite H1; eapply frame_valid; eauto).
  destruct (IH _ _ I1 Vr E) as [I2 F2]. rewrite H1 in F2. split; auto. eapply frame_trans; eauto.
Qed.
Lemma begin_inv path prefix extra st root : begin_run path asked prefix extra = (st, root) -> inv st /\ valid (r_heap st) root /\ read (r_heap st) root = root_path path asked prefix.
Proof.
  unfold begin_run. cbv zeta. destruct (alloc _ _ extra) as [h r] eqn:A. intros E. injection E as <- <-. destruct (alloc_spec _ _ _ _ _ A) as (F & V & R & _). cbn [r_heap send] in F.
  assert (HO : heap_ok [[]]) by (split; cbn; auto). split; [|auto]. constructor; cbn [r_heap r_log r_pm send e_kind].
  - eapply frame_ok; eauto.
  - intros e h0 [I|[]]. injection I as <- <-. eapply frame_valid; eauto. now apply nil_valid.
  - intros l1 e h0 l2 L. cbn in L. destruct l1 as [|x l1]; [|destruct l1; discriminate L]. injection L as <- <- <-. split; [|intros ? ? []]. apply view_eq. eapply frame_read; eauto. now apply nil_valid.
  - assert (W0 : wf pm0) by (constructor; constructor). revert W0. generalize pm0. clear. induction asked as [|a l IH]; intros pm W; cbn [fold_left]; auto. apply IH. now apply wf_set.
  - intros p. cbn. assert (G : forall pm, pm_get (fold_left (fun pm p => pm_set pm p status_running) asked pm) p = if in_dec path_dec p asked then Some status_running else pm_get pm p).
    { clear. induction asked as [|a l IH]; intros pm; cbn [fold_left]; [reflexivity|]. rewrite IH, get_set. destruct (in_dec path_dec p l); destruct (in_dec path_dec p (a :: l)) as [J|J]; try (exfalso; apply J; now right); auto.
      - destruct (path_dec a p); auto. destruct J; tauto.
      - destruct (path_dec a p); auto. exfalso. apply J. now left. }
    rewrite G, pm0_get. unfold shown. reflexivity.
Qed.

(** ** The end of a run *)
Definition tframe (p : slice) (h h' : heap) : Prop :=
  length h <= length h' /\ (forall i, i < length h -> i <> s_arr p -> nth i h' [] = nth i h []) /\ (forall i, i < length h -> length (nth i h' []) = length (nth i h [])) /\ read h' p = read h p.
Lemma tframe_refl p h : tframe p h h. Proof. repeat split; auto. Qed.
Lemma tframe_valid p h h' s : tframe p h h' -> valid h s -> valid h' s.
Proof. intros (A & _ & C & _) [V W]. split; [lia|]. unfold arr in *. now rewrite C. Qed.
Lemma frame_tframe p h h' : valid h p -> frame h h' -> tframe p h h'.
Proof. intros V F. destruct F as [A B]. split; auto. split; auto. split; [intros i I; now rewrite B|]. eapply frame_read; eauto. now split. Qed.
Lemma tframe_trans p a b c : valid a p -> tframe p a b -> tframe p b c -> tframe p a c.
Proof.
  intros V (A1 & A2 & A3 & A4) (B1 & B2 & B3 & B4). split; [lia|]. split; [|split].
  - intros i I N. rewrite B2, A2; auto. lia.
  - intros i I. rewrite B3, A3; auto. lia.
  - congruence.
Qed.
Lemma tframe_read p h h' t : valid h p -> tframe p h h' -> valid h t -> (s_arr t = s_arr p -> s_len t <= s_len p) -> read h' t = read h t.
Proof.
  intros Vp (A & B & C & D) [Vt Wt] L. destruct (Nat.eq_dec (s_arr t) (s_arr p)) as [E|N]; [|unfold read, arr; now rewrite B].
  specialize (L E). unfold read, arr in *. rewrite E. replace (s_len t) with (min (s_len t) (s_len p)) by lia. rewrite <- !firstn_firstn. now rewrite D.
Qed.
Definition log_low (st : rstate) (p : slice) : Prop := forall e h, In (e, h) (r_log st) -> s_arr (e_path e) = s_arr p -> s_len (e_path e) <= s_len p.
Lemma tframe_ok p h h' : tframe p h h' -> heap_ok h -> heap_ok h'.
Proof. intros (A & _ & C & _) [D E]. split; [lia|]. specialize (C 0 D). rewrite E in C. now apply length_zero_iff_nil. Qed.
Lemma inv_tframe st p h : inv st -> valid (r_heap st) p -> log_low st p -> tframe p (r_heap st) h -> inv (with_heap st h).
Proof.
  intros I V L T. apply inv_heap; auto; [eapply tframe_ok; eauto; apply I|]. intros e h0 J. pose proof (i_valid _ I _ _ J) as Ve. split; [eapply tframe_valid; eauto|]. apply (tframe_read p); auto. intros X. eapply L; eauto.
Qed.
Lemma append_tframe h p xs h' q : append h p xs = (h', q) -> valid h p -> tframe p h h' /\ valid h' q /\ read h' q = read h p ++ xs /\ s_len q = s_len p + length xs /\ (s_arr q = s_arr p \/ s_arr q >= length h).
Proof.
  intros E V. destruct (append_spec _ _ _ _ _ E V) as (Vq & Rq & Lq & Lh & Oth & Lens & Arr & Ag). split; [|split; [auto|split; [auto|split; [auto|]]]].
  - split; auto. split; auto. split; auto. apply Ag; auto. now apply agrees_short.
  - destruct Arr as [->|[]]; auto.
Qed.
(** From the slice of a child back to that of its parent. *)
Lemma tframe_child h p xs h1 q h2 : append h p xs = (h1, q) -> valid h p -> tframe q h1 h2 -> tframe p h h2.
Proof.
  intros E V T. destruct (append_tframe _ _ _ _ _ E V) as (T1 & Vq & Rq & Lq & Aq). pose proof T1 as (A1 & A2 & A3 & A4). pose proof T as (B1 & B2 & B3 & B4). destruct V as [V W].
  assert (Vp : valid h1 p) by (eapply tframe_valid; eauto; now split).
  split; [lia|]. split; [|split].
  - intros i I N. rewrite B2, A2; auto; [lia|]. destruct Aq as [->|]; lia.
  - intros i I. rewrite B3, A3; auto. lia.
  - rewrite <- A4. apply (tframe_read q); auto. intros _. lia.
Qed.
Definition success_event (p : list bytes) : seen := status_event p status_success [].
Definition pend (pm : pmap) (p : list bytes) : bool := match pm_get pm p with Some s => pending s | None => false end.
Variable root : slice.
Lemma at_end_spec st p status : inv st -> valid (r_heap st) p ->
  let st' := at_end grow None root st p status in
  inv st' /\ frame (r_heap st) (r_heap st') /\ (exists new, r_log st' = r_log st ++ new /\ forall e h, In (e, h) new -> s_arr (e_path e) >= length (r_heap st)) /\
  sent st' = sent st ++ (if pending status then [success_event (read (r_heap st) p)] else []).
Proof.
  intros I V. unfold at_end. destruct (pending status).
  2:{ cbv zeta. split; auto. split; [apply frame_refl|]. split; [exists []; rewrite app_nil_r; split; auto; intros ? ? []|now rewrite app_nil_r]. }
  destruct (alloc (r_heap st) [] 0) as [h s0] eqn:A. destruct (alloc_spec _ _ _ _ _ A) as (F & V0 & R0 & Ar & Le). destruct (append h s0 (read h p)) as [h1 q] eqn:B. cbv zeta.
  destruct (append_spec _ _ _ _ _ B V0) as (Vq & Rq & Lq & Lh & Oth & Lens & Arr & Ag).
  assert (F1 : frame (r_heap st) h1). { apply keeps_frame. eapply keeps_trans; [lia|apply frame_keeps; [lia|exact F]|]. eapply append_keeps; eauto; [lia|destruct F; lia]. }
  split; [|split; [|split]].
  - apply inv_send; [now apply inv_frame|exact Vq].
  - exact F1.
  - exists [({| e_kind := ItemStatus; e_item := None; e_path := q; e_status := status_success; e_msg := [] |}, h1)]. split; [reflexivity|]. intros e h0 [X|[]]. injection X as <- <-. cbn. destruct F. destruct Arr as [->|[]]; lia.
  - rewrite sent_send. f_equal. cbn [with_heap r_heap]. unfold view, success_event, status_event. cbn. rewrite Rq, R0. cbn [app]. rewrite (frame_read _ _ _ F V). reflexivity.
Qed.
Lemma shown_app_other l evs p : (forall v, In v evs -> v_path v <> p) -> shown asked (l ++ evs) p = shown asked l p.
Proof.
  intros H. assert (E : last_status p (l ++ evs) = last_status p l).
  { induction evs as [|v evs IH] using rev_ind; [now rewrite app_nil_r|]. rewrite app_assoc, last_status_app. rewrite IH by (intros v' I; apply H; apply in_or_app; now left).
    cbn [last_status]. destruct (v_kind v); auto. destruct (path_dec (v_path v) p) as [X|X]; auto. exfalso. revert X. apply H. apply in_or_app. right. now left. }
  unfold shown. now rewrite E.
Qed.
Definition trav_list (f : rstate -> slice -> bytes -> rstate) :=
  fix go (node : list bytes) (prefix : slice) (m : list (bytes * pmap)) (st : rstate) {struct m} : rstate :=
    match m with
    | [] => st
    | (k, v) :: m' => let '(h, p) := append (r_heap st) prefix [k] in go node prefix m' (traverse grow f v (node ++ [k]) p (with_heap st h))
    end.
Lemma traverse_eq f r m node prefix st : traverse grow f (PM r m) node prefix st =
  trav_list f node prefix m (match r with None => st | Some _ => match pm_get (r_pm st) node with Some status => f st prefix status | None => st end end).
Proof. cbn [traverse]. set (s0 := match r with None => _ | _ => _ end). clearbody s0. revert s0. induction m as [|[k v] m IH]; intros s0; [reflexivity|]. cbn [trav_list]. destruct (append (r_heap s0) prefix [k]). apply IH. Qed.
Definition trav_good (t : pmap) : Prop := wf t -> forall node p st, inv st -> valid (r_heap st) p -> read (r_heap st) p = node -> log_low st p ->
  (forall q, In q (rec_paths t node) -> pm_get (r_pm st) q <> None) ->
  let st' := traverse grow (at_end grow None root) t node p st in
  inv st' /\ tframe p (r_heap st) (r_heap st') /\ (exists new, r_log st' = r_log st ++ new /\ forall e h, In (e, h) new -> s_arr (e_path e) >= length (r_heap st)) /\
  sent st' = sent st ++ map success_event (filter (pend (r_pm st)) (rec_paths t node)).
Lemma log_low_new st st' p new : log_low st p -> valid (r_heap st) p -> r_log st' = r_log st ++ new -> (forall e h, In (e, h) new -> s_arr (e_path e) >= length (r_heap st)) -> log_low st' p.
Proof. intros L [V _] E N e h I X. rewrite E in I. apply in_app_or in I as [I|I]; [eapply L; eauto|]. apply N in I. lia. Qed.
Lemma trav_list_good m node p : Forall (fun kv => trav_good (snd kv)) m -> Forall (fun kv => wf (snd kv)) m -> forall st, inv st -> valid (r_heap st) p -> read (r_heap st) p = node -> log_low st p ->
  NoDup (flat_map (fun kv => rec_paths (snd kv) (node ++ [fst kv])) m) ->
  (forall q, In q (flat_map (fun kv => rec_paths (snd kv) (node ++ [fst kv])) m) -> pm_get (r_pm st) q <> None) ->
  let st' := trav_list (at_end grow None root) node p m st in
  inv st' /\ tframe p (r_heap st) (r_heap st') /\ (exists new, r_log st' = r_log st ++ new /\ forall e h, In (e, h) new -> s_arr (e_path e) >= length (r_heap st)) /\
  sent st' = sent st ++ map success_event (filter (pend (r_pm st)) (flat_map (fun kv => rec_paths (snd kv) (node ++ [fst kv])) m)).
Proof.
  induction m as [|[k v] m IH]; intros G W st I V R L N K; cbn [trav_list flat_map]; cbv zeta.
  { split; auto. split; [apply tframe_refl|]. split; [exists []; rewrite app_nil_r; split; auto; intros ? ? []|now rewrite app_nil_r]. }
  inversion G as [|? ? G1 G2]; subst. inversion W as [|? ? W1 W2]; subst. cbn [snd fst flat_map] in *. set (node := read (r_heap st) p) in *.
  destruct (append (r_heap st) p [k]) as [h q] eqn:A. destruct (append_tframe _ _ _ _ _ A V) as (T1 & Vq & Rq & Lq & Aq).
  assert (I1 : inv (with_heap st h)) by (eapply inv_tframe; eauto).
  assert (L1 : log_low (with_heap st h) q).
  { intros e h0 J X. cbn in J. destruct Aq as [Aq|Aq]; [rewrite Lq; rewrite Aq in X; specialize (L _ _ J X); lia|]. destruct (i_valid _ I _ _ J). lia. }
  destruct (G1 W1 (node ++ [k]) q (with_heap st h) I1 Vq Rq L1) as (I2 & T2 & (new & Ln & Nn) & S2).
  { intros x J. apply K. apply in_or_app. now left. }
  set (st2 := traverse grow (at_end grow None root) v (node ++ [k]) q (with_heap st h)) in *. cbn [with_heap r_heap r_log r_pm] in T2, Ln, Nn, S2.
  assert (T3 : tframe p (r_heap st) (r_heap st2)) by (eapply tframe_child; eauto).
  assert (V3 : valid (r_heap st2) p) by (eapply tframe_valid; eauto).
  assert (R3 : read (r_heap st2) p = node). { destruct T3 as (_ & _ & _ & X). exact X. }
  assert (Nn' : forall e h, In (e, h) new -> s_arr (e_path e) >= length (r_heap st)). { intros e h0 J. apply Nn in J. destruct T1. lia. }
  assert (L3 : log_low st2 p) by (eapply log_low_new; eauto).
  assert (Dis : forall q, In q (flat_map (fun kv => rec_paths (snd kv) (node ++ [fst kv])) m) -> ~ In q (rec_paths v (node ++ [k]))).
  { clear -N. intros q J1 J2. induction (rec_paths v (node ++ [k])) as [|x l IHl]; [destruct J2|]. cbn in N. apply NoDup_cons_iff in N as [N1 N2]. destruct J2 as [->|J2]; [apply N1; apply in_or_app; auto|auto]. }
  assert (Same : forall q, In q (flat_map (fun kv => rec_paths (snd kv) (node ++ [fst kv])) m) -> pm_get (r_pm st2) q = pm_get (r_pm st) q).
  { intros x J. rewrite (i_pm _ I2), (i_pm _ I), S2. apply shown_app_other. intros y Jy E. apply in_map_iff in Jy as (z & <- & Jz). apply filter_In in Jz as [Jz _]. cbn in E. subst z. now apply (Dis x). }
  assert (N3 : NoDup (flat_map (fun kv => rec_paths (snd kv) (node ++ [fst kv])) m)). { clear -N. induction (rec_paths v (node ++ [k])) as [|x l IHl]; auto. cbn in N. apply NoDup_cons_iff in N as [_ N]. auto. }
  destruct (IH G2 W2 st2 I2 V3 R3 L3 N3) as (I4 & T4 & (new4 & Ln4 & Nn4) & S4).
  { intros x J. rewrite Same by auto. apply K. apply in_or_app. now right. }
  split; auto. split; [eapply tframe_trans; eauto|]. split.
  - exists (new ++ new4). split; [now rewrite Ln4, Ln, app_assoc|]. intros e h0 J. apply in_app_or in J as [J|J]; [eauto|]. apply Nn4 in J. destruct T3. lia.
  - rewrite S4, S2, filter_app, map_app, <- app_assoc. f_equal. f_equal. f_equal. apply filter_ext_in. intros x J. unfold pend. now rewrite Same.
Qed.
Lemma traverse_good t : trav_good t.
Proof.
  induction t as [r m IH] using pmap_ind'. intros W node p st I V R L K. pose proof (rec_paths_NoDup _ W node) as ND. inversion W as [r' m' N F]; subst. rewrite traverse_eq. cbn [rec_paths] in K, ND |- *. set (node := read (r_heap st) p) in *.
  set (C := flat_map (fun kv => rec_paths (snd kv) (node ++ [fst kv])) m) in *.
  destruct r as [s0|].
  2:{ cbn [app] in *. now apply trav_list_good. }
  destruct (pm_get (r_pm st) node) as [s|] eqn:E; [|exfalso; apply (K node); [now left|exact E]].
  destruct (at_end_spec st p s I V) as (I1 & F1 & (new & Ln & Nn) & S1). set (st1 := at_end grow None root st p s) in *.
  cbn [app] in ND. apply NoDup_cons_iff in ND as [ND1 ND2].
  assert (V1 : valid (r_heap st1) p) by (eapply frame_valid; eauto).
  assert (Same : forall q, In q C -> pm_get (r_pm st1) q = pm_get (r_pm st) q).
  { intros x J. rewrite (i_pm _ I1), (i_pm _ I), S1. apply shown_app_other. intros y Jy X. destruct (pending s); [|destruct Jy]. destruct Jy as [<-|[]]. cbn in X. fold node in X. subst x. auto. }
  destruct (trav_list_good m node p IH F st1 I1 V1) as (I2 & T2 & (new2 & Ln2 & Nn2) & S2).
  - apply (frame_read _ _ _ F1 V).
  - eapply log_low_new; eauto.
  - exact ND2.
  - intros x J. fold C in J. rewrite Same by auto. apply K. now right.
  - cbv zeta. fold C in S2. split; auto. split; [eapply tframe_trans; [exact V|apply frame_tframe; [exact V|exact F1]|exact T2]|]. split.
    + exists (new ++ new2). split; [now rewrite Ln2, Ln, app_assoc|]. intros e h J. apply in_app_or in J as [J|J]; [eauto|]. apply Nn2 in J. destruct F1. lia.
    + rewrite S2, S1. cbn [app filter]. unfold pend at 2. rewrite E. fold node. rewrite <- app_assoc. f_equal. destruct (pending s); cbn [app map]; [f_equal|]; f_equal; apply filter_ext_in; intros x J; unfold pend; now rewrite Same.
Qed.
Lemma pending_iff s : pending s = true <-> unfinished s.
Proof.
  unfold pending, unfinished. destruct s as [|c s]; [tauto|]. rewrite orb_true_iff, !eqs_eq. split; [tauto|]. intros [H|H]; [discriminate H|exact H].
Qed.
Lemma ending_spec t st : inv st -> reordered (r_pm st) t ->
  let st' := ending grow None root t st in
  inv st' /\ exists ends, sent st' = sent st ++ map success_event ends ++ [{| v_kind := TestEnd; v_item := None; v_path := []; v_status := []; v_msg := [] |}] /\
  NoDup ends /\ (forall p, In p ends <-> exists s, shown asked (sent st) p = Some s /\ unfinished s) /\
  forall p s, shown asked (sent st') p = Some s -> ~ unfinished s.
Proof.
  intros I R. destruct (reordered_same _ _ R (i_wf _ I)) as [W G]. destruct (nil_valid _ (i_heap _ I)) as [Vn Rn].
  destruct (traverse_good t W [] nil_slice st I Vn Rn) as (I1 & T1 & _ & S1).
  - intros e h J X. cbn in X. destruct (i_valid _ I _ _ J) as [_ L]. unfold arr in L. rewrite X in L. destruct (i_heap _ I) as [_ Z]. rewrite Z in L. cbn in L. cbn. exact L.
  - intros q J. apply (rec_paths_In _ W) in J as (q' & -> & X). cbn [app]. now rewrite <- G.
  - cbv zeta. unfold ending. set (st1 := traverse _ _ _ _ _ _) in *. assert (Vn1 : valid (r_heap st1) nil_slice) by (eapply tframe_valid; eauto).
    split; [now apply inv_send|]. exists (filter (pend (r_pm st)) (rec_paths t [])). rewrite sent_send, S1.
    assert (Rn1 : read (r_heap st1) nil_slice = []) by reflexivity. unfold view at 1. cbn [e_kind e_item e_path e_status e_msg]. rewrite Rn1.
    set (ends := filter _ _). assert (Ends : forall p, In p ends <-> exists s, shown asked (sent st) p = Some s /\ unfinished s).
    { intros p. unfold ends. rewrite filter_In. unfold pend. rewrite <- (i_pm _ I). split.
      - intros [_ H]. destruct (pm_get (r_pm st) p) as [s|]; [|discriminate H]. exists s. split; auto. now apply pending_iff.
      - intros (s & E & U). rewrite E. split; [|now apply pending_iff]. apply (rec_paths_In _ W). exists p. split; auto. rewrite G, E. discriminate. }
    split; [now rewrite <- app_assoc|]. split; [apply NoDup_filter; now apply rec_paths_NoDup|]. split; [exact Ends|].
    intros p s. unfold shown. rewrite last_status_app. cbn [last_status v_kind]. change (shown asked (sent st ++ map success_event ends) p = Some s -> ~ unfinished s).
    destruct (in_dec path_dec p ends) as [J|J].
    + assert (L : last_status p (map success_event ends) = Some status_success).
      { clear -J. induction ends as [|x l IH]; [destruct J|]. cbn [map last_status]. destruct (in_dec path_dec p l) as [K|K]; [now rewrite IH|]. destruct J as [->|J]; [|tauto].
        destruct (last_status p (map success_event l)) as [s|] eqn:E; [exfalso|cbn [success_event status_event v_kind v_path v_status]; destruct (path_dec p p); [reflexivity|congruence]]. apply K. clear K IH. induction l as [|y l IH]; [discriminate E|]. cbn [map last_status] in E.
        destruct (last_status p (map success_event l)); [right; now apply IH|]. cbn [success_event status_event v_kind v_path v_status] in E. destruct (path_dec y p); [now left|discriminate E]. }
      assert (L2 : forall l1 l2, last_status p l2 = Some status_success -> last_status p (l1 ++ l2) = Some status_success).
      { clear. induction l1 as [|x l1 IH]; intros l2 E; [exact E|]. cbn [app last_status]. now rewrite IH. }
      unfold shown. rewrite L2 by exact L. intros X. injection X as <-. intros [X|[X|X]]; discriminate X.
    + rewrite shown_app_other; [intros E U; apply J; apply Ends; eauto|]. intros v K E. apply in_map_iff in K as (x & <- & K). cbn in E. congruence.
Qed.
(** With --strace (single tests only): one path at most is known. *)
Inductive chain : pmap -> Prop := chain_end r : chain (PM r []) | chain_next r k v : chain v -> chain (PM r [(k, v)]).
Lemma at_end_trace trace st p status : inv st -> valid (r_heap st) p -> log_low st p ->
  let st' := at_end grow trace root st p status in inv st' /\ frame (r_heap st) (r_heap st') /\ log_low st' p.
Proof.
  intros I V L. destruct (at_end_spec st p status I V) as (I1 & F1 & (new & Ln & Nn) & _). assert (L1 : log_low (at_end grow None root st p status) p) by (eapply log_low_new; eauto).
  cbv zeta. unfold at_end in *. destruct trace as [recs|]; [|auto]. set (st1 := if pending status then _ else st) in *.
  destruct (trim_prefix _ _) as [suf|]; auto. destruct (recs suf); auto. split; [apply inv_send; auto; eapply frame_valid; eauto|]. split; auto.
  intros e h J X. cbn in J. apply in_app_or in J as [J|[J|[]]]; [eapply L1; eauto|]. injection J as <- <-. cbn. auto.
Qed.
Lemma traverse_chain trace t : chain t -> forall node p st, inv st -> valid (r_heap st) p -> log_low st p -> inv (traverse grow (at_end grow trace root) t node p st).
Proof.
  intros C. induction C as [r|r k v C IH]; intros node p st I V L; rewrite traverse_eq; cbn [trav_list].
  - destruct r; auto. destruct (pm_get _ _); auto. now apply at_end_trace.
  - set (st1 := match r with None => st | _ => _ end).
    assert (A : inv st1 /\ valid (r_heap st1) p /\ log_low st1 p).
    { unfold st1. destruct r; auto. destruct (pm_get _ _) as [s|]; auto. destruct (at_end_trace trace st p s I V L) as (A1 & A2 & A3). split; auto. split; auto. eapply frame_valid; eauto. }
    destruct A as (I1 & V1 & L1). destruct (append (r_heap st1) p [k]) as [h q] eqn:A. destruct (append_tframe _ _ _ _ _ A V1) as (T1 & Vq & Rq & Lq & Aq).
    apply IH; auto; [eapply inv_tframe; eauto|]. intros e h0 J X. cbn in J. destruct Aq as [Aq|Aq]; [rewrite Lq; rewrite Aq in X; specialize (L1 _ _ J X); lia|]. destruct (i_valid _ I1 _ _ J). lia.
Qed.
End Asked.
Lemma json_good decode prefix mod_path resolve root : good_build (json_build grow decode prefix mod_path resolve) root.
Proof.
  intros h pm line h' es H V E. unfold json_build in E. destruct (has_prefix line #"{").
  - destruct (decode line) as [t|]; [|discriminate E]. destruct (build_event grow prefix mod_path resolve h pm t) as [h1 es1] eqn:B. injection E as <- <-. destruct (build_event_spec _ _ _ _ _ _ _ _ B H) as (A & C & _). auto.
  - destruct (fail_pkg line) as [p|]; [|discriminate E]. destruct (build_event grow prefix mod_path resolve h pm _) as [h1 es1] eqn:B. injection E as <- <-. destruct (build_event_spec _ _ _ _ _ _ _ _ B H) as (A & C & _). auto.
Qed.
Lemma builder_good single decode prefix mod_path resolve root : good_build (builder grow single decode prefix mod_path resolve root) root.
Proof.
  unfold builder. destruct single; [|apply json_good]. intros h pm line h' es H V E. injection E as <- <-. split; [apply frame_refl|]. intros e [<-|[]]. exact V.
Qed.
Lemma before_inv asked st0 root path prefix extra build lines st1 err : begin_run path asked prefix extra = (st0, root) -> good_build build root -> consume build root st0 lines = CEof st1 ->
  inv asked (failed root err st1) /\ valid (r_heap (failed root err st1)) root.
Proof.
  intros B G C. destruct (begin_inv _ _ _ _ _ _ B) as (I0 & V0 & _). destruct (consume_inv asked _ _ _ G _ _ I0 V0 C) as [I1 F1]. assert (V1 : valid (r_heap st1) root) by (eapply frame_valid; eauto).
  unfold failed. destruct err; [|auto]. split; [now apply inv_send|exact V1].
Qed.
End Run.

(** ** C86 *)
(** When a run ends, each item that has no result yet, and no other, is sent one success; then the end of the
    test.  No item the page knows is left running. *)
Theorem C86_no_item_left_running grow single decode mod_path resolve path asked prefix lines err before after :
  run_ends grow None single decode mod_path resolve path asked prefix lines err before after ->
  exists ends, sent after = sent before ++ map (fun p => status_event p #"success" []) ends ++ [{| v_kind := TestEnd; v_item := None; v_path := []; v_status := []; v_msg := [] |}] /\
    NoDup ends /\ (forall p, In p ends <-> exists s, shown asked (sent before) p = Some s /\ unfinished s) /\
    forall p s, shown asked (sent after) p = Some s -> ~ unfinished s.
Proof.
  intros [extra st0 root st1 t B C -> R ->]. destruct (before_inv _ _ _ _ _ _ _ _ _ err B (builder_good grow _ _ _ _ _ _) C) as [I V].
  exact (proj2 (ending_spec grow asked root t _ I R)).
Qed.
(** Whenever an event is encoded after it was sent, it reads as when it was sent. *)
Theorem C86_events_unchanged grow single decode mod_path resolve path asked prefix lines err before after :
  run_ends grow None single decode mod_path resolve path asked prefix lines err before after -> unchanged after.
Proof.
  intros [extra st0 root st1 t B C -> R ->]. destruct (before_inv _ _ _ _ _ _ _ _ _ err B (builder_good grow _ _ _ _ _ _) C) as [I V].
  exact (i_unch _ _ (proj1 (ending_spec grow asked root t _ I R))).
Qed.
(** With traces, which are asked for a single test only (the page sends the path of the item, or none). *)
Fixpoint along (p : list bytes) (c : pmap) : Prop :=
  match p with [] => exists r, c = PM r [] | k :: q => exists v, c = PM None [(k, v)] /\ along q v end.
Lemma along_set p : forall s, along p (pm_set pm0 p s).
Proof. induction p as [|k p IH]; intros s; cbn; eauto. Qed.
Lemma along_reset p : forall c s, along p c -> along p (pm_set c p s).
Proof.
  induction p as [|k p IH]; intros c s A; cbn in A.
  - destruct A as (r & ->). cbn. eauto.
  - destruct A as (v & -> & A). cbn. rewrite eqs_refl. eexists. split; [reflexivity|]. now apply IH.
Qed.
Lemma along_chain p : forall c, along p c -> chain c.
Proof. induction p as [|k p IH]; intros c A; cbn in A; [destruct A as (r & ->); constructor|destruct A as (v & -> & A); constructor; auto]. Qed.
Lemma chain_reordered c : chain c -> forall t, reordered c t -> chain t.
Proof.
  induction 1 as [r|r k v C IH]; intros t R; inversion R as [r' m m1 m2 F P]; subst.
  - inversion F; subst. apply Permutation_nil in P. subst. constructor.
  - inversion F as [|a b ? ? [E Rv] F1]; subst. inversion F1; subst. destruct b as [k' v']. apply Permutation_length_1_inv in P. subst. constructor. now apply IH.
Qed.
Theorem C86_trace_events_unchanged grow recs decode mod_path resolve path p prefix lines err before after :
  path = [] \/ path = p ->
  run_ends grow (Some recs) true decode mod_path resolve path [p] prefix lines err before after -> unchanged after.
Proof.
  intros Hp [extra st0 root st1 t B C -> R ->]. destruct (before_inv [p] _ _ _ _ _ _ _ _ err B (builder_good grow _ _ _ _ _ _) C) as [I V].
  assert (A : along p (r_pm (failed root err st1))).
  { destruct (begin_inv _ _ _ _ _ _ B) as (I0 & V0 & R0). destruct (consume_inv [p] _ _ _ (builder_good grow _ _ _ _ _ _) _ _ I0 V0 C) as [I1 F1].
    assert (Rp : read (r_heap st1) root = p). { rewrite (frame_read _ _ _ F1 V0), R0. unfold root_path. destruct Hp as [->| ->]; [reflexivity|]. now destruct p. }
    assert (A1 : along p (r_pm st1)).
    { assert (A0 : along p (r_pm st0)). { unfold begin_run in B. destruct (alloc _ _ _) in B. injection B as <- _. cbn. apply along_set. }
      clear -A0 C. revert st0 A0 C. induction lines as [|l lines IH]; intros st0 A0 C; cbn [consume] in C; [now injection C as <-|]. unfold builder at 1 in C. cbn [plain_build] in C. apply IH in C; auto. }
    unfold failed. destruct err; auto. cbn. rewrite Rp. now apply along_reset. }
  unfold ending. assert (Vn : valid (r_heap (failed root err st1)) nil_slice) by (apply nil_valid, I).
  assert (L : log_low (failed root err st1) nil_slice).
  { intros e h J X. cbn in X. destruct (i_valid _ _ I _ _ J) as [_ L]. unfold arr in L. rewrite X in L. destruct (i_heap _ _ I) as [_ Z]. rewrite Z in L. exact L. }
  assert (I2 := traverse_chain grow [p] root (Some recs) t (chain_reordered _ (along_chain _ _ A) _ R) [] nil_slice _ I Vn L).
  apply (i_unch [p]). apply inv_send; auto. apply nil_valid, I2.
Qed.
(** But success is no proof that a test passed: tests of a package that does not compile get it too. *)
Definition ex_asked : list (list bytes) := [[#"m"]; [#"m"; #"a_test.go"]; [#"m"; #"a_test.go"; #"TestA"]].
Theorem C86_success_only_if_passed_refuted : exists grow decode resolve lines err before after,
  run_ends grow None false decode #"m" resolve [] ex_asked [#"m"] lines (Some err) before after /\
  (forall l, In l lines -> decode l = inr #"not json") /\
  shown ex_asked (sent after) [#"m"; #"a_test.go"; #"TestA"] = Some #"success".
Proof.
  destruct (begin_run [] ex_asked [#"m"] 0) as [st0 root] eqn:B.
  set (dec := fun _ : bytes => @inr test_event bytes #"not json"). set (res := fun _ _ : bytes => @None bytes). set (lines := [#"FAIL m [build failed]"]).
  destruct (consume (builder (fun _ n => n) false dec [#"m"] #"m" res root) root st0 lines) as [st1|st1|st1] eqn:C.
  2,3: vm_compute in B; injection B as <- <-; vm_compute in C; discriminate C.
  exists (fun _ n => n), dec, res, lines, #"exit status 1", (failed root (Some #"exit status 1") st1), (ending (fun _ n => n) None root (r_pm (failed root (Some #"exit status 1") st1)) (failed root (Some #"exit status 1") st1)).
  split; [|split].
  - eapply run_ends_intro; eauto. assert (X : forall t, reordered t t). { induction t as [r m IH] using pmap_ind'. apply reordered_pm with (m1 := m); auto. clear -IH. induction IH; constructor; auto. } apply X.
  - reflexivity.
  - vm_compute in B. injection B as <- <-. vm_compute in C. injection C as <-. vm_compute. reflexivity.
Qed.

(** ** C88 *)
(** *** Specification *)
(** The import path of the package in directory [es]. *)
Definition pkg_of (dir_pkg : bytes) (es : list bytes) : bytes := match es with [] => dir_pkg | _ => dir_pkg ++ #"/" ++ slashed es end.
(** In directory [l], the test function [name] is declared in file [f] and in no other place, and all test files can be parsed. *)
Definition declared (l : list node) (f name : bytes) : Prop :=
  (exists p, f = p ++ #"_test.go") /\
  (exists ds d, In (NFile f (Some ds)) l /\ In d ds /\ d_name d = name /\ (exists r, name = #"Test" ++ r) /\ d_body d = true /\ d_params d = 1) /\
  (forall g ds d, In (NFile g (Some ds)) l -> In d ds -> d_name d = name -> g = f) /\
  (forall g p, In (NFile g None) l -> g <> p ++ #"_test.go").
Definition status_word (action status : bytes) : Prop :=
  (action = #"run" /\ status = #"running") \/ (action = #"pass" /\ status = #"success") \/ (action = #"fail" /\ status = #"fail") \/ (action = #"skip" /\ status = #"skip") \/
  (action <> #"run" /\ action <> #"pass" /\ action <> #"fail" /\ action <> #"skip" /\ status = []).
(** The tree that tells the page of a subtest: every step with its name and its full name. *)
Definition steps (base : bytes) (suffix : list bytes) : list (bytes * bytes) :=
  map (fun i => (nth i suffix [], base ++ #"/" ++ slashed (firstn (S i) suffix))) (seq 0 (length suffix)).
Definition tree_event (p : list bytes) (base rel : bytes) (suffix : list bytes) : seen :=
  {| v_kind := MergeTree; v_item := Some {| m_base := base; m_rel := rel; m_chain := steps base suffix |}; v_path := p; v_status := []; v_msg := [] |}.
(** *** Proofs *)
Lemma status_word_iff a s : status_word a s <-> s = status_of_action a.
Proof.
  unfold status_word, status_of_action. destruct (eqs a #"run") eqn:E1; [apply eqs_eq in E1|].
  { split; [intros [H|[H|[H|[H|H]]]]; destruct H; subst; try discriminate; try tauto; reflexivity|]. intros ->. subst. left. split; reflexivity. }
  destruct (eqs a #"pass") eqn:E2; [apply eqs_eq in E2|].
  { split; [intros [H|[H|[H|[H|H]]]]; destruct H; subst; try discriminate; try tauto; reflexivity|]. intros ->. subst. right. left. split; reflexivity. }
  destruct (eqs a #"fail") eqn:E3; [apply eqs_eq in E3|].
  { split; [intros [H|[H|[H|[H|H]]]]; destruct H; subst; try discriminate; try tauto; reflexivity|]. intros ->. subst. right. right. left. split; reflexivity. }
  destruct (eqs a #"skip") eqn:E4; [apply eqs_eq in E4|].
  { split; [intros [H|[H|[H|[H|H]]]]; destruct H; subst; try discriminate; try tauto; reflexivity|]. intros ->. subst. right. right. right. left. split; reflexivity. }
  assert (forall x, eqs a x = false -> a <> x) as N. { intros x E ->. rewrite eqs_refl in E. discriminate E. }
  split; [intros [[H _]|[[H _]|[[H _]|[[H _]|H]]]]; try (exfalso; revert H; now apply N); tauto|]. intros ->. right. right. right. right. repeat split; now apply N.
Qed.
Lemma steps_merge l : forall pre x, merge_chain l pre (x, pre ++ #"/" ++ slashed (l ++ [x])) = steps pre (l ++ [x]).
Proof.
  induction l as [|k l IH]; intros pre x; [reflexivity|]. cbn [merge_chain app].
  assert (J : forall r, r <> [] -> slashed (k :: r) = k ++ #"/" ++ slashed r). { intros [|y r] N; [tauto|reflexivity]. }
  rewrite J by (destruct l; discriminate). replace (pre ++ #"/" ++ k ++ #"/" ++ slashed (l ++ [x])) with ((pre ++ #"/" ++ k) ++ #"/" ++ slashed (l ++ [x])) by now rewrite <- !app_assoc.
  rewrite IH. unfold steps. cbn [length seq map nth firstn]. f_equal.
  rewrite <- seq_shift, map_map. apply map_ext_in. intros i I. apply in_seq in I. f_equal. change (firstn (S (S i)) (k :: l ++ [x])) with (k :: firstn (S i) (l ++ [x])).
  rewrite J by (destruct l; discriminate). now rewrite <- !app_assoc.
Qed.
Lemma has_prefix_self a b : has_prefix (a ++ b) a = true.
Proof. induction a as [|c a IH]; [now destruct b|]. cbn. unfold eqc. now rewrite Ascii.eqb_refl. Qed.
Lemma sub_path_of dir_pkg es : pkg_sub_path dir_pkg (pkg_of dir_pkg es) = slashed es.
Proof.
  unfold pkg_sub_path, pkg_of. destruct es as [|e es].
  - rewrite <- (app_nil_r dir_pkg) at 1. rewrite has_prefix_self. cbn [negb]. rewrite skipn_all. reflexivity.
  - rewrite has_prefix_self. cbn [negb]. rewrite skipn_app, skipn_all, Nat.sub_diag. cbn [app skipn]. reflexivity.
Qed.
Lemma parse_files_spec rel l : (forall g p, In (NFile g None) l -> g <> p ++ #"_test.go") ->
  exists items, parse_files rel l = Some items /\
  forall it, In it items <-> exists f ds d, In (NFile f (Some ds)) l /\ has_suffix f #"_test.go" = true /\ In d ds /\ is_test_func d = true /\ it = case_item (child_path rel f) d.
Proof.
  induction l as [|n l IH]; intros H.
  - exists []. split; auto. intros it. split; [intros []|]. intros (f & ds & d & [] & _).
  - destruct IH as (items & E & I); [intros g p J; apply (H g p); now right|].
    destruct n as [f ds|x g c]; cbn [parse_files].
    + destruct (has_suffix f #"_test.go") eqn:S; cbn [negb].
      * destruct ds as [ds|]; [|exfalso; apply suffix_iff in S as (p & S); apply (H f p); auto; now left].
        rewrite E. eexists. split; [reflexivity|]. intros it. rewrite in_app_iff, I. unfold parse_tests. rewrite in_map_iff. split.
        -- intros [(d & <- & J)|(f' & ds' & d & J & K)]; [apply filter_In in J as [J1 J2]; exists f, ds, d; cbn; auto 10|]. exists f', ds', d. cbn. tauto.
        -- intros (f' & ds' & d & [J|J] & S' & K & T & ->); [injection J as <- <-; left; exists d; split; auto; now apply filter_In|]. right. exists f', ds', d. auto.
      * exists items. split; auto. intros it. rewrite I. split; intros (f' & ds' & d & J & S' & K); exists f', ds', d; [cbn; auto|]. destruct J as [J|J]; [injection J as <- <-; congruence|auto].
    + exists items. split; auto. intros it. rewrite I. split; intros (f' & ds' & d & J & S' & K); exists f', ds', d; [cbn; auto|]. destruct J as [J|J]; [discriminate J|auto].
Qed.
Lemma resolve_declared dir dir_pkg es l f name : Forall good es -> dir (slashed es) = Some l -> declared l f name ->
  resolve_test dir dir_pkg (pkg_of dir_pkg es) name = Some (slashed (es ++ [f])).
Proof.
  intros G D ((p & Ef) & (ds & d & Il & Id & En & Et & Eb & Ep) & U & O). unfold resolve_test. cbv zeta.
  assert (Sub : (if eqs dir_pkg (pkg_of dir_pkg es) then [] else pkg_sub_path dir_pkg (pkg_of dir_pkg es)) = slashed es).
  { rewrite sub_path_of. destruct es as [|e es]; [cbn [pkg_of]; now rewrite eqs_refl|]. destruct (eqs _ _) eqn:E; auto. exfalso. apply eqs_eq in E. cbn [pkg_of] in E. apply (f_equal (@length _)) in E. rewrite !app_length in E. cbn in E. lia. }
  rewrite Sub. assert (C : negb (eqs dir_pkg (pkg_of dir_pkg es)) && match slashed es with [] => true | _ => false end = false).
  { destruct es as [|e es]; [cbn [pkg_of]; now rewrite eqs_refl|]. destruct (slashed (e :: es)) eqn:E; [apply slashed_nil in E; auto; discriminate E|apply andb_false_r]. }
  rewrite C, D. destruct (parse_files_spec (slashed es) l O) as (items & -> & I).
  assert (T : is_test_func d = true). { apply listed_iff. split; [rewrite En; exact Et|auto]. }
  assert (J : In (case_item (child_path (slashed es) f) d) items). { apply I. exists f, ds, d. repeat split; auto. apply suffix_iff. now exists p. }
  destruct (find _ items) as [it|] eqn:F.
  - apply find_some in F as [F1 F2]. apply I in F1 as (f' & ds' & d' & I' & S' & Id' & T' & ->). cbn in F2 |- *. apply eqs_eq in F2. rewrite (U f' ds' d' I' Id' F2). f_equal. now apply child_slashed.
  - exfalso. apply (find_none _ _ F) in J. cbn in J. rewrite En, eqs_refl in J. discriminate J.
Qed.
Lemma cut_first_none c s : ~ In c s -> cut_first c s = None.
Proof. induction s as [|x s IH]; cbn; intros H; auto. unfold eqc. destruct (Ascii.eqb x c) eqn:E; [apply Ascii.eqb_eq in E; tauto|]. rewrite IH; auto. Qed.
Lemma cut_first_app c a s : ~ In c a -> cut_first c (a ++ c :: s) = Some (a, s).
Proof. induction a as [|x a IH]; cbn; intros H; unfold eqc; [now rewrite Ascii.eqb_refl|]. destruct (Ascii.eqb x c) eqn:E; [apply Ascii.eqb_eq in E; tauto|]. rewrite IH; auto. Qed.
Lemma consume_snoc build root l : forall st lines, consume build root st (lines ++ [l]) = match consume build root st lines with CEof st' => consume build root st' [l] | x => x end.
Proof. intros st lines. revert st. induction lines as [|x lines IH]; intros st; [reflexivity|]. cbn [app consume]. destruct (build _ _ x); auto. Qed.
Lemma sent_all es : forall st, sent (send_all st es) = sent st ++ map (view (r_heap st)) es.
Proof. induction es as [|e es IH]; intros st; cbn [send_all fold_left map]; [now rewrite app_nil_r|]. fold (send_all (send st e) es). rewrite IH, sent_send, <- app_assoc. reflexivity. Qed.
(** One more line that is read as [t]. *)
Lemma one_event grow decode dir_pkg resolve path asked prefix extra st0 root lines st line st' t :
  begin_run path asked prefix extra = (st0, root) ->
  consume (builder grow false decode prefix dir_pkg resolve root) root st0 lines = CEof st ->
  consume (builder grow false decode prefix dir_pkg resolve root) root st0 (lines ++ [line]) = CEof st' ->
  (forall h pm, json_build grow decode prefix dir_pkg resolve h pm line = let '(h, es) := build_event grow prefix dir_pkg resolve h pm t in BOk h es) ->
  inv asked st /\ sent st' = sent st ++ pure_build prefix dir_pkg resolve (r_pm st) t.
Proof.
  intros B C C' H. destruct (begin_inv _ _ _ _ _ _ B) as (I0 & V0 & _). destruct (consume_inv asked _ _ _ (builder_good grow _ _ _ _ _ _) _ _ I0 V0 C) as [I1 F1].
  split; auto. rewrite consume_snoc, C in C'. cbn [consume] in C'. unfold builder at 1 in C'. rewrite H in C'. destruct (build_event grow prefix dir_pkg resolve (r_heap st) (r_pm st) t) as [h es] eqn:E. injection C' as <-.
  destruct (build_event_spec _ _ _ _ _ _ _ _ _ E (i_heap _ _ I1)) as (_ & _ & S). rewrite sent_all. cbn [with_heap r_heap]. rewrite S. reflexivity.
Qed.
(** *** Theorems *)
Section C88.
Variables (grow : nat -> nat -> nat) (decode : bytes -> test_event + bytes) (dir : bytes -> option (list node)) (dir_pkg : bytes) (path : list bytes)
  (asked : list (list bytes)) (name : bytes) (extra : nat) (st0 : rstate) (root : slice) (lines : list bytes) (st : rstate) (line : bytes) (st' : rstate).
Hypothesis Hbegin : begin_run path asked [name] extra = (st0, root).
Hypothesis Hbefore : consume (builder grow false decode [name] dir_pkg (resolve_test dir dir_pkg) root) root st0 lines = CEof st.
Hypothesis Hafter : consume (builder grow false decode [name] dir_pkg (resolve_test dir dir_pkg) root) root st0 (lines ++ [line]) = CEof st'.
Variables (t : test_event) (es : list bytes) (l : list node) (f base status : bytes).
Hypothesis Hjson : exists r, line = #"{" ++ r.
Hypothesis Hdecode : decode line = inl t.
Hypothesis Hstatus : status_word (t_action t) status.
Hypothesis Hes : Forall good es.
Hypothesis Hpkg : t_package t = pkg_of dir_pkg es.
Hypothesis Hpkg0 : dir_pkg <> [].
Lemma pkg_nonnil : exists c r, t_package t = c :: r.
Proof. rewrite Hpkg. destruct es; cbn; [destruct dir_pkg; [tauto|eauto]|]. destruct dir_pkg; [tauto|]. cbn. eauto. Qed.
Lemma json_line h pm : json_build grow decode [name] dir_pkg (resolve_test dir dir_pkg) h pm line = let '(h, es) := build_event grow [name] dir_pkg (resolve_test dir dir_pkg) h pm t in BOk h es.
Proof. destruct Hjson as (r & E). unfold json_build. rewrite E, has_prefix_self, <- E, Hdecode. reflexivity. Qed.
(** The result and the output of a package go to its directory. *)
Theorem C88_package_events : t_test t = [] -> sent st' = sent st ++ [status_event (name :: es) status (t_output t)].
Proof.
  intros T. destruct (one_event _ _ _ _ _ _ _ _ _ _ _ _ _ _ t Hbegin Hbefore Hafter json_line) as [I S]. rewrite S. f_equal. unfold pure_build. rewrite T. destruct pkg_nonnil as (c & r & E). rewrite E, <- E, Hpkg, sub_path_of, split_item_slashed by auto.
  apply status_word_iff in Hstatus. now rewrite Hstatus.
Qed.
Hypothesis Hdir : dir (slashed es) = Some l.
Hypothesis Hdecl : declared l f base.
Hypothesis Hf : good f.
Hypothesis Hbase : good base.
(** Those of a test go to its case in the tree. *)
Theorem C88_test_events : t_test t = base -> sent st' = sent st ++ [status_event (name :: es ++ [f; base]) status (t_output t)].
Proof.
  intros T. destruct (one_event _ _ _ _ _ _ _ _ _ _ _ _ _ _ t Hbegin Hbefore Hafter json_line) as [I S]. rewrite S. f_equal. unfold pure_build. destruct pkg_nonnil as (c & r & E). rewrite E, <- E, T, Hpkg.
  destruct Hbase as [B1 B2]. destruct base as [|bc br] eqn:Eb; [tauto|]. rewrite <- Eb in *. rewrite cut_first_none by auto. rewrite (resolve_declared dir dir_pkg es l f) by auto.
  unfold pure_test. cbv zeta. rewrite split_item_slashed by (apply good_snoc; auto). apply status_word_iff in Hstatus. rewrite Hstatus. cbn [app]. now rewrite <- app_assoc.
Qed.
(** Those of a subtest go to its place below that case, and the output to the case too.  A subtest the page
    has not been told of is announced first, and each step down to it is shown as running. *)
Theorem C88_subtest_events suffix : suffix <> [] -> Forall (fun x => ~ In "/"%char x) suffix -> slashed suffix <> [] -> t_test t = base ++ #"/" ++ slashed suffix ->
  let at_ := name :: es ++ [f; base] in
  sent st' = sent st ++
    match shown asked (sent st) (at_ ++ suffix) with
    | None => tree_event at_ base (slashed (es ++ [f])) suffix :: map (fun i => status_event (at_ ++ firstn (S i) suffix) #"running" []) (seq 0 (length suffix))
    | Some _ => []
    end ++ [status_event (at_ ++ suffix) status (t_output t); status_event at_ [] (t_output t)].
Proof.
  intros N FS NS T. destruct (one_event _ _ _ _ _ _ _ _ _ _ _ _ _ _ t Hbegin Hbefore Hafter json_line) as [I S]. cbv zeta. rewrite S. f_equal. unfold pure_build. destruct pkg_nonnil as (c & r & E). rewrite E, <- E.
  destruct Hbase as [B1 B2]. destruct (t_test t) as [|tc tr] eqn:Et; [destruct base; [tauto|discriminate T]|]. rewrite T. assert (CF : cut_first "/"%char (base ++ #"/" ++ slashed suffix) = Some (base, slashed suffix)) by now apply (cut_first_app "/"%char base (slashed suffix)). rewrite CF.
  assert (Sp : split_item_paths (slashed suffix) = suffix). { unfold split_item_paths. destruct (slashed suffix) eqn:Es; [tauto|]. rewrite <- Es. apply split_join; auto. }
  rewrite Sp, Hpkg, (resolve_declared dir dir_pkg es l f) by auto. unfold pure_test. cbv zeta. rewrite split_item_slashed by (apply good_snoc; auto).
  apply status_word_iff in Hstatus. rewrite Hstatus. replace ([name] ++ (es ++ [f]) ++ [base]) with (name :: es ++ [f; base]) by (cbn; now rewrite <- app_assoc).
  destruct (exists_last N) as (lst & x & Ex). rewrite (i_pm _ _ I). destruct suffix as [|s0 sr] eqn:Esuf; [tauto|]. rewrite <- Esuf in *.
  destruct (shown asked (sent st) _); [reflexivity|]. unfold tree_event. rewrite Ex, removelast_last, last_last, steps_merge. reflexivity.
Qed.
End C88.
(** A package that can not be built is shown as failed. *)
Definition blank (c : ascii) : Prop := In c [" "%char; "009"%char; "010"%char; "012"%char; "013"%char].
Lemma is_ws_iff c : is_ws c = true <-> blank c.
Proof. unfold is_ws, blank, containsc. rewrite existsb_exists. unfold eqc. split; [intros (x & I & E); apply Ascii.eqb_eq in E; now subst|intros I; exists c; split; auto; apply Ascii.eqb_refl]. Qed.
Lemma span_app g a b : Forall (fun c => g c = true) a -> match b with c :: _ => g c = false | [] => True end -> span g (a ++ b) = (a, b).
Proof. intros F B. induction F as [|x a Fx F IH]; cbn [app]. - destruct b as [|c b]; [reflexivity|]. cbn. now rewrite B. - cbn. rewrite Fx, IH. reflexivity. Qed.
Lemma fail_pkg_spec line : forall pkg, fail_pkg line = Some pkg <->
  exists w1 w2 rest, line = #"FAIL" ++ w1 ++ pkg ++ w2 ++ rest /\ w1 <> [] /\ w2 <> [] /\ pkg <> [] /\ Forall blank w1 /\ Forall blank w2 /\ Forall (fun c => ~ blank c) pkg.
Proof.
  assert (SP : forall g s a b, span g s = (a, b) -> s = a ++ b /\ Forall (fun c => g c = true) a).
  { intros g s. induction s as [|c s IH]; intros a b E; cbn in E; [injection E as <- <-; auto|]. destruct (g c) eqn:G; [|injection E as <- <-; auto]. destruct (span g s) as [a' b'] eqn:Q. injection E as <- <-. destruct (IH _ _ eq_refl) as [-> F]. split; auto. }
  assert (WS : forall l, Forall (fun c => is_ws c = true) l -> Forall blank l) by (intros l; apply Forall_impl; intros; now apply is_ws_iff).
  intros pkg. unfold fail_pkg. split.
  - destruct (has_prefix line #"FAIL") eqn:P; [|discriminate]. cbn [negb]. destruct (span is_ws (skipn 4 line)) as [b1 r1] eqn:S1. destruct (span (fun c => negb (is_ws c)) r1) as [w r2] eqn:S2. destruct (span is_ws r2) as [b2 r3] eqn:S3.
    destruct (SP _ _ _ _ S1) as [E1 F1]. destruct (SP _ _ _ _ S2) as [E2 F2]. destruct (SP _ _ _ _ S3) as [E3 F3].
    destruct b1 as [|c1 b1]; [discriminate|]. destruct w as [|c2 w]; [discriminate|]. destruct b2 as [|c3 b2]; [discriminate|]. intros X. injection X as <-.
    exists (c1 :: b1), (c3 :: b2), r3. split; [|repeat split; try discriminate; auto].
    + rewrite <- E3, <- E2, <- E1. apply prefix_iff' in P as (r & ->). reflexivity.
    + eapply Forall_impl; [|exact F2]. intros c H B. apply is_ws_iff in B. change (negb (is_ws c) = true) in H. rewrite B in H. discriminate H.
  - intros (w1 & w2 & rest & -> & N1 & N2 & Np & F1 & F2 & Fp). rewrite has_prefix_self. cbn [negb]. change (skipn 4 (#"FAIL" ++ w1 ++ pkg ++ w2 ++ rest)) with (w1 ++ pkg ++ w2 ++ rest).
    assert (G1 : Forall (fun c => is_ws c = true) w1) by (eapply Forall_impl; [|exact F1]; intros; now apply is_ws_iff).
    assert (Gp : Forall (fun c => negb (is_ws c) = true) pkg). { eapply Forall_impl; [|exact Fp]. intros c H. change (negb (is_ws c) = true). destruct (is_ws c) eqn:E; auto. apply is_ws_iff in E. exact (False_ind _ (H E)). }
    destruct pkg as [|c pkg]; [tauto|]. destruct w2 as [|c2 w2]; [tauto|]. destruct w1 as [|c1 w1]; [tauto|].
    rewrite span_app; auto; [|inversion Gp as [|? ? X1 X2]; subst; change (is_ws c = false); destruct (is_ws c); [discriminate X1|auto]].
    rewrite span_app; auto; [|inversion F2 as [|? ? X1 X2]; subst; change (negb (is_ws c2) = false); apply is_ws_iff in X1; now rewrite X1].
    cbn [app span]. inversion F2 as [|? ? X1 X2]; subst. apply is_ws_iff in X1. rewrite X1. destruct (span is_ws (w2 ++ rest)). reflexivity.
Qed.
Theorem C88_build_failure grow decode dir dir_pkg path asked name extra st0 root lines st line st' es w1 w2 rest :
  begin_run path asked [name] extra = (st0, root) ->
  consume (builder grow false decode [name] dir_pkg (resolve_test dir dir_pkg) root) root st0 lines = CEof st ->
  consume (builder grow false decode [name] dir_pkg (resolve_test dir dir_pkg) root) root st0 (lines ++ [line]) = CEof st' ->
  Forall good es -> dir_pkg <> [] -> Forall (fun c => ~ blank c) (pkg_of dir_pkg es) ->
  line = #"FAIL" ++ w1 ++ pkg_of dir_pkg es ++ w2 ++ rest -> w1 <> [] -> w2 <> [] -> Forall blank w1 -> Forall blank w2 ->
  exists msg, sent st' = sent st ++ [status_event (name :: es) #"fail" msg].
Proof.
  intros B C C' G N Fp E N1 N2 F1 F2.
  assert (Np : pkg_of dir_pkg es <> []) by (destruct dir_pkg as [|c d]; [tauto|destruct es; discriminate]).
  assert (FP : fail_pkg line = Some (pkg_of dir_pkg es)) by (apply fail_pkg_spec; exists w1, w2, rest; repeat split; auto).
  destruct (one_event _ _ _ _ _ _ _ _ _ _ _ _ _ _ {| t_action := #"fail"; t_package := pkg_of dir_pkg es; t_test := []; t_output := #"
" ++ line |} B C C') as [I S].
  - intros h pm. unfold json_build. assert (P : has_prefix line #"{" = false) by (rewrite E; reflexivity). now rewrite P, FP.
  - rewrite S. eexists. f_equal. unfold pure_build. cbn [t_package t_test t_action t_output]. destruct (pkg_of dir_pkg es) as [|c r] eqn:Ep; [tauto|]. rewrite <- Ep, sub_path_of, split_item_slashed by auto. reflexivity.
Qed.
(** Any other line on the output of go test -json stops the whole explorer; a line of JSON that is no event stops
    the reading of the output. *)
Theorem C88_other_output_refuted grow decode prefix dir_pkg resolve path asked extra st0 root lines st line rest :
  begin_run path asked prefix extra = (st0, root) ->
  consume (builder grow false decode prefix dir_pkg resolve root) root st0 lines = CEof st ->
  ((forall r, line <> #"{" ++ r) -> (forall w1 pkg w2 r, line = #"FAIL" ++ w1 ++ pkg ++ w2 ++ r -> Forall blank w1 -> Forall blank w2 -> Forall (fun c => ~ blank c) pkg -> w1 = [] \/ pkg = [] \/ w2 = []) ->
     consume (builder grow false decode prefix dir_pkg resolve root) root st0 (lines ++ line :: rest) = CCrash st) /\
  (forall r msg, line = #"{" ++ r -> decode line = inr msg ->
     exists st', consume (builder grow false decode prefix dir_pkg resolve root) root st0 (lines ++ line :: rest) = CStop st' /\ exists p, sent st' = sent st ++ [{| v_kind := ErrorMsg; v_item := None; v_path := p; v_status := []; v_msg := msg |}]).
Proof.
  intros B C. assert (App : forall l1 l2 s s', consume (builder grow false decode prefix dir_pkg resolve root) root s l1 = CEof s' -> consume (builder grow false decode prefix dir_pkg resolve root) root s (l1 ++ l2) = consume (builder grow false decode prefix dir_pkg resolve root) root s' l2).
  { clear. induction l1 as [|x l1 IH]; intros l2 s s' E; cbn [app consume] in *; [now injection E as <-|]. destruct (builder grow false decode prefix dir_pkg resolve root _ _ x); try discriminate E. now apply IH. }
  rewrite (App _ _ _ _ C). clear App B C. split.
  - intros N1 N2. cbn [consume]. unfold builder at 1, json_build. destruct (has_prefix line #"{") eqn:P; [exfalso; apply prefix_iff' in P as (r & P); now apply (N1 r)|].
    destruct (fail_pkg line) as [pkg|] eqn:F; auto. exfalso. apply fail_pkg_spec in F as (w1 & w2 & r & E & A & A2 & A3 & A4 & A5 & A6). destruct (N2 _ _ _ _ E A4 A5 A6) as [X|[X|X]]; tauto.
  - intros r msg E D. cbn [consume]. unfold builder at 1, json_build. assert (P : has_prefix line #"{" = true) by (rewrite E; apply has_prefix_self). rewrite P, D. eexists. split; [reflexivity|]. eexists. rewrite sent_send. reflexivity.
Qed.
(** A package of another module whose path begins with that of this one is taken for one of this module. *)
Theorem C88_other_module_refuted : exists dir_pkg pkg : bytes, (forall es, Forall good es -> pkg <> pkg_of dir_pkg es) /\ pkg_sub_path dir_pkg pkg = #"x".
Proof.
  exists #"m", #"mx". split; [|reflexivity]. intros [|e es] F E; cbn in E; discriminate E.
Qed.
(** *** A case: two subtests below a test, the second announced with its parent known, then the end; the paths
    of siblings share an array. *)
Definition ex_dir (p : bytes) : option (list node) := if eqs p #"pkg" then Some [NFile #"a_test.go" (Some [{| d_name := #"TestA"; d_body := true; d_params := 1; d_recv := false; d_testing_T := true; d_results := false; d_generic := false |}])] else None.
Definition ex_decode (line : bytes) : test_event + bytes :=
  if eqs line #"{1" then inl {| t_action := #"run"; t_package := #"m/pkg"; t_test := #"TestA"; t_output := [] |}
  else if eqs line #"{2" then inl {| t_action := #"run"; t_package := #"m/pkg"; t_test := #"TestA/x/y"; t_output := [] |}
  else if eqs line #"{3" then inl {| t_action := #"fail"; t_package := #"m/pkg"; t_test := #"TestA/x/y"; t_output := #"bad" |}
  else if eqs line #"{4" then inl {| t_action := #"run"; t_package := #"m/pkg"; t_test := #"TestA/x/z"; t_output := [] |}
  else inr #"bad line".
Definition ex_p := [#"m"; #"pkg"; #"a_test.go"; #"TestA"].
Example run_example :
  let '(st0, root) := begin_run [] [[#"m"]; ex_p] [#"m"] 0 in
  exists st1, consume (builder (fun _ n => n) false ex_decode [#"m"] #"m" (resolve_test ex_dir #"m") root) root st0 [#"{1"; #"{2"; #"{3"; #"{4"] = CEof st1 /\
    let before := failed root None st1 in
    map (fun v => (v_path v, v_status v)) (sent (ending (fun _ n => n) None root (r_pm before) before)) =
      [([], []); (ex_p, #"running"); (ex_p, []); (ex_p ++ [#"x"], #"running"); (ex_p ++ [#"x"; #"y"], #"running"); (ex_p ++ [#"x"; #"y"], #"running"); (ex_p, []);
       (ex_p ++ [#"x"; #"y"], #"fail"); (ex_p, []); (ex_p, []); (ex_p ++ [#"x"], #"running"); (ex_p ++ [#"x"; #"z"], #"running"); (ex_p ++ [#"x"; #"z"], #"running"); (ex_p, []);
       ([#"m"], #"success"); (ex_p, #"success"); (ex_p ++ [#"x"], #"success"); (ex_p ++ [#"x"; #"z"], #"success"); ([], [])] /\
    declared [NFile #"a_test.go" (Some [{| d_name := #"TestA"; d_body := true; d_params := 1; d_recv := false; d_testing_T := true; d_results := false; d_generic := false |}])] #"a_test.go" #"TestA".
Proof.
  destruct (begin_run _ _ _ _) as [st0 root] eqn:B. vm_compute in B. injection B as <- <-.
  eexists. split; [vm_compute; reflexivity|]. split; [vm_compute; reflexivity|].
  split; [now exists #"a"|]. split; [|split].
  - eexists _, _. split; [now left|]. split; [now left|]. split; [reflexivity|]. split; [now exists #"A"|]. split; reflexivity.
  - intros g ds d [X|[]] I. injection X as <- <-. reflexivity.
  - intros g p [X|[]]. discriminate X.
Qed.
