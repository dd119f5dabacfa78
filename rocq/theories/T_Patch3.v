(** * C46: a patch block with any number of places puts every text where it says, and changes
    nothing else.  Model: M_Patch. *)
From Coq Require Import Ascii String List Arith Bool Lia.
From Verif Require Import M_Str M_Patch P_Str P_Patch P_Patch3 S_Patch T_Patch2.
Import ListNotations.
Open Scope nat_scope.

(** ** Specification *)
(** A text, followed by a number of newline commands. *)
Definition seg := (bytes * nat)%type.
Definition seg_text (s : seg) : bytes := fst s ++ repeat newline (snd s).
(** What is done at one place. *)
Inductive deed := Look | PutBefore (ts : list seg) | PutAfter (ts : list seg) | PutAfterLine (t : seg) | PutInstead (t : seg).
Definition one (f : bytes -> command) (s : seg) : list command := f (fst s) :: repeat Newline (snd s).
Definition deed_commands (d : deed) : list command :=
  match d with
  | Look => []
  | PutBefore ts => flat_map (one InsertBefore) ts
  | PutAfter ts => flat_map (one InsertAfter) ts
  | PutAfterLine t => one InsertAfterLine t
  | PutInstead t => one ReplaceWith t
  end.
Definition is_after (d : deed) : bool := match d with PutAfter _ | PutAfterLine _ => true | _ => false end.
Definition deed_ok (pos : command) (d : deed) : Prop :=
  match d with
  | Look => True
  | PutBefore ts | PutAfter ts => ts <> [] /\ Forall (fun t => fst t <> []) ts
  | PutAfterLine t => fst t <> []
  | PutInstead t => fst t <> [] /\ exists w, w <> [] /\ pos = FindForReplace w
  end.
Definition script (ps : list (command * deed)) : list command := flat_map (fun p => fst p :: deed_commands (snd p)) ps.

(** [w] stands at [i] in the part [ss, se) of the text. *)
Definition stands (src : bytes) (ss se : nat) (w : bytes) (i : nat) : Prop :=
  ss <= i /\ i + length w <= se /\ slice src i (i + length w) = w.
(** Where a positioning command goes from the cursor [cur]: the place the syntax tree gives; the
    first occurrence in the enclosing declaration (or file); for a replacement, the nearest
    occurrence before the cursor if there is one. *)
Definition located (A : ast) (src : bytes) (cur : nat) (pos : command) (i j : nat) : Prop :=
  let '(ss, se) := match a_node A src cur with Some r => r | None => (0, length src) end in
  match pos with
  | Goto target => a_goto A src cur target = Some (i, j) /\ i <= j <= length src
  | Match w =>
      ss <= se <= length src /\
      stands src ss se w i /\ j = i + length w /\ (forall k, stands src ss se w k -> i <= k)
  | FindForReplace w =>
      ss <= se <= length src /\ j = i + length w /\
      ((ss < cur <= se /\ stands src ss cur w i /\ forall k, stands src ss cur w k -> k <= i) \/
       ((ss < cur <= se -> forall k, ~ stands src ss cur w k) /\ stands src ss se w i /\ forall k, stands src ss se w k -> i <= k))
  | _ => False
  end.
Inductive located_all (A : ast) (src : bytes) : nat -> list (command * deed) -> list (nat * nat) -> Prop :=
| LNil cur : located_all A src cur [] []
| LCons cur p d ps i j l : located A src cur p i j -> deed_ok p d -> located_all A src i ps l -> located_all A src cur ((p, d) :: ps) ((i, j) :: l).

(** The stretch of the text that a deed at [i, j) concerns and what stands there afterwards. *)
Definition spot (src : bytes) (d : deed) (i j : nat) : list (nat * nat * bytes) :=
  match d with
  | Look => []
  | PutBefore ts => [(i, i, concat (map seg_text (rev ts)))]
  | PutAfter ts => [(j, j, concat (map seg_text ts))]
  | PutAfterLine t =>
      let j := match nth_error src j with Some c => if eqc c newline then S j else j | None => j end in
      [(j, j, seg_text t)]
  | PutInstead t => [(i, j, #"/*old:" ++ slice src i j ++ #"*/" ++ seg_text t)]
  end.
Fixpoint spots (src : bytes) (ps : list (command * deed)) (l : list (nat * nat)) : list (nat * nat * bytes) :=
  match ps, l with (_, d) :: ps, (i, j) :: l => spot src d i j ++ spots src ps l | _, _ => [] end.
(** One after the other, without overlap, inside the text. *)
Fixpoint in_order (from : nat) (l : list (nat * nat * bytes)) (stop : nat) : Prop :=
  match l with [] => from <= stop | (i, j, _) :: l => from <= i /\ i <= j /\ in_order j l stop end.
(** The text from [from] to [stop] with the stretches replaced by marked texts, then [rest]. *)
Fixpoint weave (n src : bytes) (from : nat) (l : list (nat * nat * bytes)) (stop : nat) (rest : bytes) : bytes :=
  match l with
  | [] => slice src from stop ++ rest
  | (i, j, body) :: l => slice src from i ++ begin_mark n ++ body ++ end_mark n ++ weave n src j l stop rest
  end.
(** Only the last place may insert after; then the others insert at most one text before. *)
Definition one_after (ps : list (command * deed)) : Prop :=
  (forall a p d b, ps = a ++ (p, d) :: b -> is_after d = true -> b = []) /\
  ((exists a p d, ps = a ++ [(p, d)] /\ is_after d = true) -> forall p ts, In (p, PutBefore ts) ps -> length ts = 1).

(** ** Running the commands *)
Definition grp (src : bytes) (k : nat) (d : deed) (i j : nat) : list group :=
  let g ins segs rep old := [{| g_seq := k; g_offset := i; g_insert_end := ins; g_segments := segs; g_replace := rep; g_old := old |}] in
  match d with
  | Look => []
  | PutBefore ts | PutAfter ts => g j (map seg_text ts) false []
  | PutAfterLine t => g (match nth_error src j with Some c => if eqc c newline then S j else j | None => j end) [seg_text t] false []
  | PutInstead t => g j [seg_text t] true (slice src i j)
  end.

Lemma slice_all (s : bytes) : slice s 0 (length s) = s.
Proof. unfold slice. rewrite Nat.sub_0_r. apply firstn_all. Qed.
Lemma slice_slice s a b i j : b <= length s -> a + j <= b -> slice (slice s a b) i j = slice s (a + i) (a + j).
Proof.
  intros Lb H. unfold slice. destruct (le_lt_dec j i) as [Lij|Lij].
  - replace (j - i) with 0 by lia. replace (a + j - (a + i)) with 0 by lia. reflexivity.
  - replace (a + j - (a + i)) with (j - i) by lia. rewrite <- skipn_add. rewrite skipn_firstn_comm, firstn_firstn. f_equal. lia.
Qed.
Lemma firstn_plus {X} a b (t : list X) : firstn (a + b) t = firstn a t ++ firstn b (skipn a t).
Proof. revert t. induction a as [|a IH]; intros t; [reflexivity|]. destruct t; simpl; [now rewrite firstn_nil|now rewrite IH]. Qed.
Lemma slice_cat s i j k : i <= j -> j <= k -> slice s i j ++ slice s j k = slice s i k.
Proof.
  intros H1 H2. unfold slice. replace (k - i) with ((j - i) + (k - j)) by lia. rewrite firstn_plus, skipn_add. now replace (i + (j - i)) with j by lia.
Qed.
Lemma stands_split src ss se w i : ss <= se <= length src ->
  (stands src ss se w i <-> exists a b, slice src ss se = a ++ w ++ b /\ i = ss + length a).
Proof.
  intros L. unfold stands. split.
  - intros (H1 & H2 & H3). exists (slice src ss i), (slice src (i + length w) se). split.
    + transitivity (slice src ss i ++ slice src i (i + length w) ++ slice src (i + length w) se); [now rewrite !slice_cat by lia|now rewrite H3].
    + unfold slice. rewrite firstn_length, skipn_length. lia.
  - intros (a & b & E & ->). assert (Le : length (slice src ss se) = se - ss) by (unfold slice; rewrite firstn_length, skipn_length; lia).
    rewrite E, !app_length in Le. split; [lia|]. split; [lia|].
    rewrite <- Nat.add_assoc. rewrite <- (slice_slice src ss se) by lia. rewrite E. apply slice_app; auto.
Qed.

Lemma last_index_max s w n : last_index s w = Some n <-> (exists a b, s = a ++ w ++ b /\ length a = n) /\ forall a b, s = a ++ w ++ b -> length a <= n.
Proof.
  split.
  - intros H. split; [now apply last_index_sound|]. revert n H. induction s as [|c s IH]; intros n H a b E; cbn [last_index] in H.
    + destruct a; [simpl; lia|discriminate].
    + destruct (last_index s w) as [m|] eqn:L.
      * injection H as <-. destruct a as [|d a]; [simpl; lia|]. injection E as _ E. specialize (IH m eq_refl a b E). simpl. lia.
      * destruct a as [|d a]; [simpl; lia|]. exfalso. injection E as _ E. clear -L E. revert a E. induction s as [|x s IH]; intros a E; cbn [last_index] in L.
        -- destruct a; [|discriminate]. simpl in E. destruct w, b; try discriminate.
        -- destruct (last_index s w) eqn:L'; [discriminate|]. destruct (has_prefix (x :: s) w) eqn:P; [discriminate|].
           destruct a as [|y a]; [rewrite E in P; cbn [app] in P; rewrite has_prefix_app in P; discriminate|]. injection E as _ E. now apply (IH eq_refl a).
  - intros [(a & b & E & La) M]. destruct (last_index s w) as [m|] eqn:L.
    + assert (exists a b, s = a ++ w ++ b /\ length a = m) by now apply last_index_sound. destruct H as (a1 & b1 & E1 & L1). f_equal.
      assert (m <= n) by (rewrite <- L1; eapply M; eauto).
      assert (n <= m); [|lia]. rewrite <- La. revert L. clear -E. revert m a E. induction s as [|c s IH]; intros m a E L; cbn [last_index] in L.
      * destruct a; [simpl; lia|discriminate].
      * destruct a as [|d a]; [simpl; lia|]. injection E as _ E. destruct (last_index s w) as [m'|] eqn:L'.
        -- injection L as <-. specialize (IH m' a E eq_refl). simpl. lia.
        -- exfalso. clear -L' E. revert a E. induction s as [|x s IH]; intros a E; cbn [last_index] in L'.
           ++ destruct a; [|discriminate]. simpl in E. destruct w, b; try discriminate.
           ++ destruct (last_index s w) eqn:L''; [discriminate|]. destruct (has_prefix (x :: s) w) eqn:P; [discriminate|].
              destruct a as [|y a]; [rewrite E in P; cbn [app] in P; rewrite has_prefix_app in P; discriminate|]. injection E as _ E. now apply (IH eq_refl a).
    + exfalso. clear -L E. revert a E. induction s as [|x s IH]; intros a E; cbn [last_index] in L.
      * destruct a; [|discriminate]. simpl in E. destruct w, b; try discriminate.
      * destruct (last_index s w) eqn:L''; [discriminate|]. destruct (has_prefix (x :: s) w) eqn:P; [discriminate|].
        destruct a as [|y a]; [rewrite E in P; cbn [app] in P; rewrite has_prefix_app in P; discriminate|]. injection E as _ E. now apply (IH eq_refl a).
Qed.
Lemma last_index_none s w a b : last_index s w = None -> s <> a ++ w ++ b.
Proof.
  intros L E. revert a E. induction s as [|x s IH]; intros a E; cbn [last_index] in L.
  - destruct a; [|discriminate]. simpl in E. destruct w, b; try discriminate.
  - destruct (last_index s w) eqn:L''; [discriminate|]. destruct (has_prefix (x :: s) w) eqn:P; [discriminate|].
    destruct a as [|y a]; [rewrite E in P; cbn [app] in P; rewrite has_prefix_app in P; discriminate|]. injection E as _ E. now apply (IH eq_refl a).
Qed.

Lemma index_stands src ss se w i : ss <= se <= length src -> stands src ss se w i -> (forall k, stands src ss se w k -> i <= k) ->
  index (slice src ss se) w = Some (i - ss).
Proof.
  intros L S M. apply stands_split in S as (a & b & E & ->); auto. replace (ss + length a - ss) with (length a) by lia.
  apply (index_least _ _ a b E). intros a' b' E'. enough (ss + length a <= ss + length a') by lia. apply M. apply stands_split; eauto.
Qed.

Lemma exec_position A src s p i j : located A src (c_offset (s_cursor s)) p i j -> is_position p ->
  exec A src s p = Some (move s {| c_offset := i; c_end := j; c_replace := match p with FindForReplace _ => true | _ => false end |}).
Proof.
  intros H P. unfold located in H. destruct (match a_node A src (c_offset (s_cursor s)) with Some r => r | None => (0, length src) end) as [ss se] eqn:N.
  destruct p; try contradiction; cbn [exec].
  - destruct H as (-> & _). reflexivity.
  - destruct H as (L & S & -> & M). unfold eval_match. rewrite N. cbn [andb].
    rewrite (index_stands _ _ _ _ _ L S M). cbn [option_map]. destruct S as (S & _). replace (ss + (i - ss)) with i by lia. reflexivity.
  - destruct H as (L & -> & H). unfold eval_match. rewrite N. cbn [andb].
    set (cur := c_offset (s_cursor s)) in *. clearbody cur.
    destruct H as [(C & S & M)|(C & S & M)].
    + replace ((ss <? cur) && (cur <=? se)) with true by (symmetry; apply andb_true_intro; split; [apply Nat.ltb_lt|apply Nat.leb_le]; lia).
      assert (Lc : ss <= cur <= length src) by lia.
      assert (E : last_index (slice src ss cur) text = Some (i - ss)).
      { apply last_index_max. pose proof S as S'. apply stands_split in S' as (a & b & E & Ei); auto. split.
        - exists a, b. split; auto. lia.
        - intros a' b' E'. enough (ss + length a' <= i) by lia. apply M. apply stands_split; eauto. }
      rewrite E. cbn [option_map]. destruct S as (S & _). replace (ss + (i - ss)) with i by lia. reflexivity.
    + assert (E : (if (ss <? cur) && (cur <=? se) then last_index (slice src ss cur) text else None) = None).
      { destruct ((ss <? cur) && (cur <=? se)) eqn:Q; auto. apply andb_prop in Q as (Q1 & Q2). apply Nat.ltb_lt in Q1. apply Nat.leb_le in Q2.
        destruct (last_index (slice src ss cur) text) as [m|] eqn:X; auto. exfalso. apply last_index_sound in X as (a & b & X & _).
        apply (C ltac:(lia) (ss + length a)). apply stands_split; [lia|eauto]. }
      rewrite E. rewrite (index_stands _ _ _ _ _ L S M). cbn [option_map]. destruct S as (S & _). replace (ss + (i - ss)) with i by lia. reflexivity.
Qed.

Definition upd (s : state) (after : bool) (gs : list group) : state :=
  {| s_cursor := s_cursor s; s_seq := s_seq s; s_after := after; s_groups := gs; s_append := s_append s; s_directive := s_directive s |}.
Definition older (k : nat) (gs : list group) : Prop := forall g, In g gs -> g_seq g < k.
Lemma map_older (f : group -> group) k gs : older k gs -> map (fun g => if g_seq g =? k then f g else g) gs = gs.
Proof.
  intros H. induction gs as [|g gs IH]; auto. cbn [map]. rewrite IH by (intros x I; apply H; now right).
  assert (g_seq g < k) by (apply H; now left). now replace (g_seq g =? k) with false by (symmetry; apply Nat.eqb_neq; lia).
Qed.
Lemma find_older k gs : older k gs -> find_group gs k = None.
Proof.
  intros H. induction gs as [|g gs IH]; auto. unfold find_group in *. cbn [find]. assert (g_seq g < k) by (apply H; now left).
  replace (g_seq g =? k) with false by (symmetry; apply Nat.eqb_neq; lia). apply IH. intros x I. apply H. now right.
Qed.
Lemma find_last k gs g rest : older k gs -> g_seq g = k -> find_group (gs ++ g :: rest) k = Some g.
Proof.
  intros H E. induction gs as [|x gs IH]; unfold find_group in *; cbn [find app].
  - now rewrite E, Nat.eqb_refl.
  - assert (g_seq x < k) by (apply H; now left). replace (g_seq x =? k) with false by (symmetry; apply Nat.eqb_neq; lia). apply IH. intros y I. apply H. now right.
Qed.
Lemma with_last s gs g f : s_groups s = gs ++ [g] -> g_seq g = s_seq s -> older (s_seq s) gs -> with_group s f = upd s (s_after s) (gs ++ [f g]).
Proof.
  intros E Eg O. unfold with_group. rewrite E, find_last by auto. rewrite map_app, map_older by auto. cbn [map]. now rewrite Eg, Nat.eqb_refl.
Qed.
Lemma with_new s f : older (s_seq s) (s_groups s) -> with_group s f = upd s (s_after s) (s_groups s ++
  [f {| g_seq := s_seq s; g_offset := c_offset (s_cursor s); g_insert_end := Nat.max (c_offset (s_cursor s)) (c_end (s_cursor s)); g_segments := []; g_replace := false; g_old := [] |}]).
Proof. intros O. unfold with_group. now rewrite find_older. Qed.

Definition segs (g : group) (l : list bytes) : group :=
  {| g_seq := g_seq g; g_offset := g_offset g; g_insert_end := g_insert_end g; g_segments := l; g_replace := g_replace g; g_old := g_old g |}.
Lemma app_last_snoc l x y : app_last (l ++ [x]) y = l ++ [x ++ y].
Proof. induction l as [|z l IH]; auto. cbn [app app_last]. destruct (l ++ [x]) eqn:E; [destruct l; discriminate|]. now rewrite IH. Qed.
Lemma exec_newlines A src n : forall s gs g l t, s_groups s = gs ++ [g] -> g_seq g = s_seq s -> older (s_seq s) gs -> g_segments g = l ++ [t] ->
  exec_all A src s (repeat Newline n) = Some (upd s (s_after s) (gs ++ [segs g (l ++ [t ++ repeat newline n])])).
Proof.
  induction n as [|n IH]; intros s gs g l t E Eg O El; cbn [repeat exec_all].
  - f_equal. cbn [repeat]. rewrite app_nil_r. destruct s, g. cbn in *. unfold upd, segs. cbn. now rewrite E, El.
  - cbn [exec]. rewrite (with_last s gs g add_newline) by auto. cbn [upd].
    rewrite (IH (upd s (s_after s) (gs ++ [add_newline g])) gs (add_newline g) l (t ++ [newline])); auto.
    + f_equal. unfold upd, segs. cbn. now rewrite <- app_assoc.
    + cbn [add_newline g_segments]. rewrite El. apply app_last_snoc.
Qed.
Lemma exec_all_app A src a : forall s b, exec_all A src s (a ++ b) = match exec_all A src s a with Some s' => exec_all A src s' b | None => None end.
Proof. induction a as [|c a IH]; intros s b; auto. cbn [app exec_all]. destruct (exec A src s c); auto. Qed.

(** Texts added to the group of the current place. *)
Lemma exec_more A src (after : bool) ts : forall s gs g, s_groups s = gs ++ [g] -> g_seq g = s_seq s -> older (s_seq s) gs ->
  Forall (fun t : seg => fst t <> []) ts ->
  exec_all A src s (flat_map (one (if after then InsertAfter else InsertBefore)) ts) =
  Some (upd s (match ts with [] => s_after s | _ => after end) (gs ++ [segs g (g_segments g ++ map seg_text ts)])).
Proof.
  induction ts as [|t ts IH]; intros s gs g E Eg O F; cbn [flat_map].
  - cbn [exec_all map]. f_equal. rewrite app_nil_r. destruct s, g. cbn in *. unfold upd, segs. cbn. now rewrite E.
  - inversion F as [|? ? Ft Fts]; subst. rewrite exec_all_app. cbn [one exec_all].
    assert (X : exec A src s ((if after then InsertAfter else InsertBefore) (fst t)) = Some (upd s after (gs ++ [add_segment (fst t) g]))).
    { destruct after; cbn [exec]; (destruct (fst t) as [|c u] eqn:Et; [congruence|]); f_equal; now rewrite (with_last _ gs g). }
    rewrite X. rewrite (exec_newlines A src (snd t) _ gs (add_segment (fst t) g) (g_segments g) (fst t)) by auto.
    rewrite (IH _ gs (segs (add_segment (fst t) g) (g_segments g ++ [fst t ++ repeat newline (snd t)]))) by auto.
    f_equal. unfold upd, segs. cbn. rewrite <- app_assoc. cbn [app map]. destruct ts; reflexivity.
Qed.

Lemma exec_place A src s p d i j : located A src (c_offset (s_cursor s)) p i j -> deed_ok p d -> older (S (s_seq s)) (s_groups s) ->
  exists c, c_offset c = i /\
  exec_all A src s (p :: deed_commands d) =
  Some {| s_cursor := c; s_seq := S (s_seq s); s_after := is_after d; s_groups := s_groups s ++ grp src (S (s_seq s)) d i j;
          s_append := s_append s; s_directive := s_directive s |}.
Proof.
  intros L D O.
  assert (P : is_position p). { unfold located in L. destruct (match a_node A src (c_offset (s_cursor s)) with Some r => r | None => (0, length src) end). destruct p; simpl; auto. }
  assert (Lij : i <= j).
  { unfold located in L. destruct (match a_node A src (c_offset (s_cursor s)) with Some r => r | None => (0, length src) end). destruct p; try contradiction; lia. }
  pose proof (exec_position A src s p i j L P) as E. set (rep := match p with FindForReplace _ => true | _ => false end) in *.
  cbn [exec_all]. rewrite E. set (s1 := move s _).
  assert (O1 : older (s_seq s1) (s_groups s1)) by exact O.
  assert (Multi : forall (after : bool) ts, ts <> [] -> Forall (fun t : seg => fst t <> []) ts ->
    exec_all A src s1 (flat_map (one (if after then InsertAfter else InsertBefore)) ts) =
    Some (upd s1 after (s_groups s ++ [{| g_seq := S (s_seq s); g_offset := i; g_insert_end := j; g_segments := map seg_text ts; g_replace := false; g_old := [] |}]))).
  { intros after ts N F. destruct ts as [|t ts]; [congruence|]. inversion F as [|? ? Ft Fts]; subst. cbn [flat_map]. rewrite exec_all_app. cbn [one exec_all].
    set (g1 := {| g_seq := S (s_seq s); g_offset := i; g_insert_end := j; g_segments := [fst t]; g_replace := false; g_old := [] |}).
    assert (X : exec A src s1 ((if after then InsertAfter else InsertBefore) (fst t)) = Some (upd s1 after (s_groups s ++ [g1]))).
    { destruct after; cbn [exec]; (destruct (fst t) as [|c u] eqn:Et; [congruence|]); f_equal; rewrite with_new by auto; unfold upd, add_segment; cbn; now rewrite Nat.max_r by auto. }
    rewrite X. rewrite (exec_newlines A src (snd t) _ (s_groups s) g1 [] (fst t)) by auto.
    rewrite (exec_more A src after ts _ (s_groups s) (segs g1 [seg_text t])) by auto.
    f_equal. unfold upd, segs. cbn. destruct ts; reflexivity. }
  destruct d as [|ts|ts|t|t]; cbn [deed_commands deed_ok grp is_after] in *.
  - eexists. split; [|cbn [exec_all]; f_equal; unfold s1, move; cbn; now rewrite app_nil_r]. reflexivity.
  - destruct D as (N & F). specialize (Multi false ts N F). cbn iota in Multi. rewrite Multi. eexists. split; [|unfold upd, s1, move; cbn; reflexivity]. reflexivity.
  - destruct D as (N & F). specialize (Multi true ts N F). cbn iota in Multi. rewrite Multi. eexists. split; [|unfold upd, s1, move; cbn; reflexivity]. reflexivity.
  - cbn [one exec_all exec]. destruct (fst t) as [|c0 u0] eqn:Et; [congruence|]. rewrite <- Et in *. 
    set (c' := match nth_error src (c_end (s_cursor s1)) with Some ch => _ | None => _ end).
    assert (Ec : c_offset c' = i /\ c_end c' = match nth_error src j with Some c => if eqc c newline then S j else j | None => j end).
    { unfold c'. cbn. destruct (nth_error src j) as [ch|]; auto. destruct (eqc ch newline); auto. }
    clearbody c'. destruct Ec as (Ec & Ee).
    rewrite with_new by exact O. cbn [set_after set_cursor s_after s_seq s_groups s_cursor].
    rewrite (exec_newlines A src (snd t) _ (s_groups s) (add_segment (fst t) {| g_seq := s_seq s1; g_offset := c_offset c'; g_insert_end := Nat.max (c_offset c') (c_end c'); g_segments := []; g_replace := false; g_old := [] |}) [] (fst t)) by auto.
    exists c'. split; auto. f_equal. unfold upd, segs, s1. cbn. rewrite Ec, Ee. 
    replace (Nat.max i _) with (match nth_error src j with Some c => if eqc c newline then S j else j | None => j end); [reflexivity|].
    destruct (nth_error src j) as [ch|]; [destruct (eqc ch newline)|]; lia.
  - destruct D as (Nt & w & Nw & ->). cbn [one exec_all exec]. destruct (fst t) as [|c0 u0] eqn:Et; [congruence|]. rewrite <- Et in *.
    cbn [s1 move s_cursor c_replace rep]. rewrite with_new by exact O.
    rewrite (exec_newlines A src (snd t) _ (s_groups s) (add_replace (fst t) (slice src i j) {| g_seq := s_seq s1; g_offset := i; g_insert_end := Nat.max i j; g_segments := []; g_replace := false; g_old := [] |}) [] (fst t)) by auto.
    eexists. split; [|f_equal; unfold upd, segs, s1, move; cbn; rewrite Nat.max_r by auto; reflexivity]. reflexivity.
Qed.

(** ** All places *)
Fixpoint groups_of (src : bytes) (k : nat) (ps : list (command * deed)) (l : list (nat * nat)) : list group :=
  match ps, l with (_, d) :: ps, (i, j) :: l => grp src (S k) d i j ++ groups_of src (S k) ps l | _, _ => [] end.
Lemma grp_seq src k d i j g : In g (grp src k d i j) -> g_seq g = k.
Proof. destruct d; cbn [grp]; intros [<-|[]] || intros []; reflexivity. Qed.
Lemma groups_newer src ps : forall k l g, In g (groups_of src k ps l) -> k < g_seq g <= k + length ps.
Proof.
  induction ps as [|[p d] ps IH]; intros k [|[i j] l] g; cbn [groups_of length]; try contradiction.
  intros I. apply in_app_or in I as [I|I]; [apply grp_seq in I; lia|]. apply IH in I. lia.
Qed.
Lemma groups_app src a : forall k la b lb, length a = length la -> groups_of src k (a ++ b) (la ++ lb) = groups_of src k a la ++ groups_of src (k + length a) b lb.
Proof.
  induction a as [|[p d] a IH]; intros k [|[i j] la] b lb E; try discriminate.
  - cbn [app groups_of length]. now rewrite Nat.add_0_r.
  - injection E as E. cbn [app groups_of length]. rewrite IH by auto. rewrite app_assoc. now replace (k + S (length a)) with (S k + length a) by lia.
Qed.
Lemma spots_app src a : forall la b lb, length a = length la -> spots src (a ++ b) (la ++ lb) = spots src a la ++ spots src b lb.
Proof.
  induction a as [|[p d] a IH]; intros [|[i j] la] b lb E; try discriminate; auto.
  injection E as E. cbn [app spots]. rewrite IH by auto. now rewrite app_assoc.
Qed.
Lemma located_length A src cur ps l : located_all A src cur ps l -> length ps = length l.
Proof. induction 1; simpl; auto. Qed.

Lemma exec_script A src ps : forall cur l s, located_all A src cur ps l -> c_offset (s_cursor s) = cur -> older (S (s_seq s)) (s_groups s) ->
  exists c, exec_all A src s (script ps) =
  Some {| s_cursor := c; s_seq := s_seq s + length ps; s_after := match ps with [] => s_after s | _ => is_after (snd (last ps (Newline, Look))) end;
          s_groups := s_groups s ++ groups_of src (s_seq s) ps l; s_append := s_append s; s_directive := s_directive s |}.
Proof.
  induction ps as [|[p d] ps IH]; intros cur l s L E O; inversion L as [|? ? ? ? i j l' Lp D Lr]; subst.
  - exists (s_cursor s). cbn [script flat_map exec_all groups_of length]. rewrite Nat.add_0_r, app_nil_r. now destruct s.
  - cbn [script flat_map fst snd]. rewrite exec_all_app. destruct (exec_place A src s p d i j Lp D O) as (c & Ec & X). rewrite X.
    match goal with |- context [exec_all A src ?st _] => set (s1 := st) end.
    destruct (IH i l' s1 Lr) as (c' & X'); [exact Ec| |].
    + intros g I. cbn [s1 s_groups s_seq] in *. apply in_app_or in I as [I|I]; [apply O in I; lia|apply grp_seq in I; lia].
    + change (flat_map (fun p => fst p :: deed_commands (snd p)) ps) with (script ps). rewrite X'. exists c'. f_equal. unfold s1. cbn [s_seq s_groups s_append s_directive s_after groups_of length].
      f_equal; [lia| |now rewrite <- app_assoc]. destruct ps; reflexivity.
Qed.

Lemma weave_snoc n src l : forall from i j b stop rest, weave n src from (l ++ [(i, j, b)]) stop rest =
  weave n src from l i (begin_mark n ++ b ++ end_mark n ++ slice src j stop ++ rest).
Proof. induction l as [|[[i0 j0] b0] l IH]; intros; cbn [app weave]; auto. now rewrite IH. Qed.
Lemma in_order_snoc l : forall from i j b stop, in_order from (l ++ [(i, j, b)]) stop <-> in_order from l i /\ i <= j /\ j <= stop.
Proof. induction l as [|[[i0 j0] b0] l IH]; intros; cbn [app in_order]; [tauto|]. rewrite IH. tauto. Qed.

(** The place number [k] (from 1) of [m] is treated as [spot] says. *)
Definition good (src : bytes) (after : bool) (m k : nat) (d : deed) : Prop :=
  (is_after d = true -> after = true /\ k = m) /\
  (forall ts, d = PutBefore ts -> after = true -> length ts = 1 /\ k < m).
Lemma apply_spot src n after m k p d i j g result : k <= m -> i <= j -> j <= length src -> deed_ok p d ->
  (forall t, d = PutInstead t -> slice src i j <> []) ->
  good src after m k d -> grp src k d i j = [g] ->
  exists a b body, spot src d i j = [(a, b, body)] /\ apply_group n after m result g = firstn a result ++ begin_mark n ++ body ++ end_mark n ++ skipn b result.
Proof.
  intros Lk Lij Lj D Ni (G1 & G2) E.
  assert (Con : forall ts : list seg, ts <> [] -> Forall (fun t => fst t <> []) ts -> concat (map seg_text ts) <> []).
  { intros [|t ts] N F; [congruence|]. inversion F as [|? ? Ft _]; subst. cbn [map concat]. unfold seg_text. destruct t as [[|c0 t0] k0]; [now contradiction Ft|discriminate]. }
  assert (Ins : forall g0 body at_, combine after g0 = body -> body <> [] -> g_replace g0 = false ->
    (if negb after || (g_seq g0 <? m) then g_offset g0 else g_insert_end g0) = at_ ->
    apply_group n after m result g0 = firstn at_ result ++ begin_mark n ++ body ++ end_mark n ++ skipn at_ result).
  { intros g0 body at_ Hc Nb R At. unfold apply_group. rewrite R, Hc. cbv zeta. rewrite At. destruct body as [|c0 r0]; [congruence|].
    apply wrap3. }
  destruct d as [|ts|ts|t|t]; cbn [grp] in E; try discriminate; injection E as <-; cbn [deed_ok spot] in *.
  - destruct D as (N & F). do 3 eexists. split; [reflexivity|]. apply Ins; auto.
    + unfold combine. cbn [g_replace g_segments orb]. rewrite map_rev. destruct after; auto.
      destruct (G2 ts eq_refl eq_refl) as (L1 & _). destruct ts as [|t [|u ts]]; try discriminate. reflexivity.
    + apply Con; [|now apply Forall_rev]. intros X. apply (f_equal (@length _)) in X. rewrite rev_length in X. destruct ts; [congruence|discriminate].
    + cbn [g_seq g_offset]. destruct after; auto. destruct (G2 ts eq_refl eq_refl) as (_ & L2). apply Nat.ltb_lt in L2. now rewrite L2.
  - destruct D as (N & F). destruct (G1 eq_refl) as (-> & ->). do 3 eexists. split; [reflexivity|]. apply Ins; auto.
    cbn [g_seq g_insert_end negb orb]. now rewrite Nat.ltb_irrefl.
  - destruct (G1 eq_refl) as (-> & ->). do 3 eexists. split; [reflexivity|]. apply Ins; auto.
    + unfold combine. cbn [g_replace g_segments orb concat]. apply app_nil_r.
    + unfold seg_text. destruct t as [[|c0 t0] k0]; [now contradiction D|discriminate].
    + cbn [g_seq g_insert_end negb orb]. now rewrite Nat.ltb_irrefl.
  - do 3 eexists. split; [reflexivity|]. unfold apply_group, combine. cbn [g_replace g_segments g_seq g_offset g_insert_end g_old orb negb concat].
    rewrite app_nil_r. specialize (Ni t eq_refl). assert (Ls : length (slice src i j) = j - i) by (unfold slice; rewrite firstn_length, skipn_length; lia).
    rewrite Ls. replace (i + (j - i)) with j by lia. destruct (slice src i j) as [|c0 r0] eqn:Q; [congruence|]. rewrite <- Q. unfold begin_mark, end_mark. cbn [app].
    rewrite <- !app_assoc. cbn [app]. reflexivity.
Qed.

Lemma apply_all src n after m post lpost pre : forall lpre from W,
  length pre = length lpre -> length pre <= m ->
  (forall a p d b la i j lb, pre = a ++ (p, d) :: b -> lpre = la ++ (i, j) :: lb -> length a = length la ->
     i <= j /\ j <= length src /\ deed_ok p d /\ (forall t, d = PutInstead t -> slice src i j <> []) /\ good src after m (S (length a)) d) ->
  in_order 0 (spots src pre lpre) from -> from <= length src ->
  apply_groups n after m (groups_of src 0 (pre ++ post) (lpre ++ lpost)) (length pre) (firstn from src ++ W) = weave n src 0 (spots src pre lpre) from W.
Proof.
  revert post lpost. induction pre as [|[p d] pre IH] using rev_ind; intros post lpost lpre from W El Lm H I Lf.
  - destruct lpre; [|discriminate]. cbn [length apply_groups spots weave]. unfold slice. now rewrite Nat.sub_0_r.
  - destruct lpre as [|[i j] lpre _] using rev_ind; [rewrite app_length in El; simpl in El; lia|].
    rewrite !app_length in El. cbn [length] in El. assert (El' : length pre = length lpre) by lia.
    destruct (H pre p d [] lpre i j [] eq_refl eq_refl El') as (Lij & Lj & D & Ni & G).
    rewrite app_length in *. cbn [length] in *. rewrite Nat.add_1_r in *. cbn [apply_groups].
    rewrite <- !app_assoc. cbn [app].
    assert (H' : forall a p d b la i j lb, pre = a ++ (p, d) :: b -> lpre = la ++ (i, j) :: lb -> length a = length la ->
     i <= j /\ j <= length src /\ deed_ok p d /\ (forall t, d = PutInstead t -> slice src i j <> []) /\ good src after m (S (length a)) d).
    { intros a p0 d0 b la i0 j0 lb -> -> E. apply (H a p0 d0 (b ++ [(p, d)]) la i0 j0 (lb ++ [(i, j)])); auto; now rewrite <- app_assoc. }
    rewrite groups_app by auto. cbn [groups_of Nat.add].
    assert (F : find_group (groups_of src 0 pre lpre ++ grp src (S (length pre)) d i j ++ groups_of src (S (length pre)) post lpost) (S (length pre)) =
                match grp src (S (length pre)) d i j with [] => None | g :: _ => Some g end).
    { destruct (grp src (S (length pre)) d i j) as [|g gr] eqn:Eg.
      - cbn [app]. assert (None_ : forall gs, (forall g, In g gs -> g_seq g <> S (length pre)) -> find_group gs (S (length pre)) = None).
        { intros gs Hg. destruct (find_group gs (S (length pre))) eqn:X; auto. apply find_group_in in X as (X1 & X2). exfalso. now apply (Hg g). }
        apply None_. intros g Ig. apply in_app_or in Ig as [Ig|Ig]; apply groups_newer in Ig; lia.
      - cbn [app]. apply find_last; [|apply (grp_seq src (S (length pre)) d i j); rewrite Eg; now left].
        intros x Ix. apply groups_newer in Ix. lia. }
    rewrite F. clear F.
    assert (Back : groups_of src 0 pre lpre ++ grp src (S (length pre)) d i j ++ groups_of src (S (length pre)) post lpost = groups_of src 0 (pre ++ (p, d) :: post) (lpre ++ (i, j) :: lpost)) by (rewrite groups_app by auto; reflexivity).
    rewrite Back. rewrite spots_app in * by auto. cbn [spots] in *. rewrite app_nil_r in *.
    destruct (grp src (S (length pre)) d i j) as [|g gr] eqn:Eg.
    + assert (Es : spot src d i j = []) by (destruct d; try discriminate; reflexivity). rewrite Es, app_nil_r in *.
      apply IH; auto. lia.
    + assert (gr = []) by (destruct d; cbn [grp] in Eg; congruence). subst gr.
      destruct (apply_spot src n after m (S (length pre)) p d i j g (firstn from src ++ W) Lm Lij Lj D Ni G Eg) as (a & b & body & Es & Ea).
      rewrite Es in *. rewrite Ea. apply in_order_snoc in I as (I & Lab & Lb). rewrite weave_snoc.
      assert (F1 : firstn a (firstn from src ++ W) = firstn a src).
      { rewrite firstn_app, firstn_firstn, firstn_length. replace (a - Nat.min from (length src)) with 0 by lia. cbn [firstn]. rewrite app_nil_r. f_equal. lia. }
      assert (F2 : skipn b (firstn from src ++ W) = slice src b from ++ W).
      { rewrite skipn_app, skipn_firstn_comm, firstn_length. replace (b - Nat.min from (length src)) with 0 by lia. reflexivity. }
      rewrite F1, F2. apply IH; auto; lia.
Qed.

(** Every block of places: the result is the source with exactly the stretches concerned
    replaced by the marked texts.  Missing from the full statement: places out of order or
    overlapping, texts put after a place that is not the last, several texts put before one
    place when the last place puts after (see C46_edit_at_place_refuted). *)
Theorem C46_places_partial :
  forall A n src ps l,
    a_parses A src = true -> ps <> [] -> located_all A src 0 ps l -> one_after ps ->
    in_order 0 (spots src ps l) (length src) ->
    apply_patch A src {| b_name := n; b_commands := script ps |} = Some (weave n src 0 (spots src ps l) (length src) []).
Proof.
  intros A n src ps l Pa Np L (O1 & O2) I. unfold apply_patch. rewrite Pa. cbn [b_commands b_name].
  destruct (exec_script A src ps 0 l init_state L eq_refl) as (c & X); [intros g []|]. rewrite X. f_equal. unfold apply_edits.
  cbn [s_directive s_append s_after s_seq s_groups init_state apply_directive apply_append Nat.add app].
  set (after := match ps with [] => false | _ => is_after (snd (last ps (Newline, Look))) end).
  assert (El : length ps = length l) by (eapply located_length; eauto).
  pose proof (apply_all src n after (length ps) [] [] ps l (length src) [] El (le_n _)) as H. rewrite !app_nil_r, firstn_all in H.
  apply H; auto. clear H.
  intros a p d b la i j lb Ea Ela E.
  assert (Q : forall cur ps l, located_all A src cur ps l -> forall a p d b la i j lb, ps = a ++ (p, d) :: b -> l = la ++ (i, j) :: lb -> length a = length la ->
    exists cur, located A src cur p i j /\ deed_ok p d).
  { clear. intros cur ps l H. induction H as [cur|cur p d ps i j l Lp D Lr IH]; intros a p' d' b la i' j' lb E1 E2 E3.
    - destruct a; discriminate.
    - destruct a as [|x a], la as [|y la]; try discriminate; cbn [app] in E1, E2.
      + injection E1 as <- <- <-. injection E2 as <- <- <-. eauto.
      + inversion E1; inversion E2; subst. injection E3 as E3. eapply IH; eauto. }
  destruct (Q 0 ps l L a p d b la i j lb Ea Ela E) as (cur & Lo & D).
  assert (Lij : i <= j /\ j <= length src).
  { unfold located in Lo. destruct (match a_node A src cur with Some r => r | None => (0, length src) end). unfold stands in Lo.
    destruct p; try contradiction; try lia. }
  split; [tauto|]. split; [tauto|]. split; auto. split.
  - intros t ->. destruct D as (_ & w & Nw & ->). unfold located in Lo. destruct (match a_node A src cur with Some r => r | None => (0, length src) end).
    destruct Lo as (_ & -> & [(_ & (_ & _ & ->) & _)|(_ & (_ & _ & ->) & _)]); auto.
  - assert (Last : b = [] -> last ps (Newline, Look) = (p, d)) by (intros ->; rewrite Ea; apply last_last).
    assert (Af : b = [] -> after = is_after d).
    { intros Eb. unfold after. rewrite (Last Eb). destruct ps; [congruence|reflexivity]. }
    split.
    + intros Hd. pose proof (O1 a p d b Ea Hd) as Eb. rewrite (Af Eb). split; auto. rewrite Ea, Eb, app_length. simpl. lia.
    + intros ts -> Ha. destruct b as [|y b0] eqn:Eb.
      * rewrite (Af eq_refl) in Ha. discriminate.
      * split; [|rewrite Ea, app_length; simpl; lia]. apply (O2) with (p := p); [|rewrite Ea; apply in_or_app; right; now left].
        destruct (exists_last (l := ps) Np) as (x & (p9 & d9) & Ex). exists x, p9, d9. split; auto. unfold after in Ha. rewrite Ex, last_last in Ha. destruct ps; [congruence|]. destruct (x ++ [(p9, d9)]); [discriminate|exact Ha].
Qed.
Print Assumptions C46_places_partial.

(** A concrete block: three places, an insertion of two texts before, a replacement, a look, and
    a text put on the line after. *)
Lemma match_compute src cur w i : index src w = Some i -> located no_decls src cur (Match w) i (i + length w).
Proof.
  intros I. unfold located. cbn [a_node no_decls]. pose proof I as J. apply index_sound in J as (a & b & E & La).
  assert (S : forall k, stands src 0 (length src) w k <-> exists a b, src = a ++ w ++ b /\ k = length a).
  { intros k. rewrite stands_split by lia. now rewrite slice_all. }
  split; [lia|]. split; [apply S; eauto|]. split; auto. intros k H. apply S in H as (a' & b' & E' & ->). apply (index_first _ _ _ I _ _ E').
Qed.
Lemma find_compute src cur w i : 0 < cur <= length src -> last_index (slice src 0 cur) w = Some i -> located no_decls src cur (FindForReplace w) i (i + length w).
Proof.
  intros Lc L. unfold located. cbn [a_node no_decls]. split; [lia|]. split; auto. left. split; auto.
  apply last_index_max in L as ((a & b & E & La) & M). split.
  - apply stands_split; [lia|]. exists a, b. auto.
  - intros k H. apply stands_split in H; [|lia]. destruct H as (a' & b' & E' & ->). specialize (M a' b' E'). simpl. lia.
Qed.
Definition ex_ps : list (command * deed) :=
  [(Match #"alpha", PutBefore [(#"1", 0); (#"2", 1)]); (Match #"gamma", Look); (FindForReplace #"beta", PutInstead (#"delta", 0));
   (Match #"gamma", PutBefore [(#"3", 0)])].
Example C46_places_example :
  exists l, located_all no_decls ex_file 0 ex_ps l /\ one_after ex_ps /\ in_order 0 (spots ex_file ex_ps l) (length ex_file) /\
  apply_patch no_decls ex_file {| b_name := #"b"; b_commands := script ex_ps |} =
  Some #("package p" ++ nl ++ "// /*<begin b>*/2" ++ nl ++ "1/*<end b>*/alpha /*<begin b>*//*old:beta*/delta/*<end b>*/" ++ nl ++ "// /*<begin b>*/3/*<end b>*/gamma" ++ nl)%string.
Proof.
  exists [(13, 18); (27, 32); (19, 23); (27, 32)]. split; [|split; [|split]].
  - apply LCons; [apply (match_compute ex_file 0 #"alpha" 13); reflexivity|split; [discriminate|repeat constructor; discriminate]|].
    apply LCons; [apply (match_compute ex_file 13 #"gamma" 27); reflexivity|exact I|].
    apply LCons; [apply (find_compute ex_file 27 #"beta" 19); [vm_compute; lia|reflexivity]|split; [discriminate|exists #"beta"; split; [discriminate|reflexivity]]|].
    apply LCons; [apply (match_compute ex_file 19 #"gamma" 27); reflexivity|split; [discriminate|repeat constructor; discriminate]|constructor].
  - split.
    + intros a p d b E A. exfalso. assert (In (p, d) ex_ps) as J by (rewrite E; apply in_or_app; right; now left).
      destruct J as [J|[J|[J|[J|[]]]]]; inversion J; subst; discriminate.
    + intros (a & p & d & E & A) q0 ts0 J0. exfalso. assert (In (p, d) ex_ps) as J by (rewrite E; apply in_or_app; right; now left).
      destruct J as [J|[J|[J|[J|[]]]]]; inversion J; subst; discriminate.
  - vm_compute. lia.
  - vm_compute. reflexivity.
Qed.
