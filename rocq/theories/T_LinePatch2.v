(** * C54, C55 and examples for C35, C53: matching nodes and reading instructions.
    Model: M_LinePatch. *)
From Coq Require Import Ascii String List Arith Bool Sorted Lia.
From Verif Require Import M_Str M_Patch P_Str M_LinePatch T_LinePatch.
Import ListNotations.
Open Scope nat_scope.

(** ** Examples *)
Definition demo : list bytes := [#"package main"; []; #"func f() {"; #"  g()"; #"}"].
Definition demo_edits : list ledit :=
  [ {| l_id := #"a"; l_line := 3; l_prepend := [#"// added"]; l_append := []; l_replace := [] |};
    {| l_id := #"b"; l_line := 4; l_prepend := []; l_append := [#"  h()"]; l_replace := [] |};
    {| l_id := #"c"; l_line := 4; l_prepend := []; l_append := []; l_replace := [#"  g2()"] |} ].
Lemma no_occ w s : index s w = None -> ~ occurs w s. Proof. apply index_none_iff. Qed.
Ltac plain_tac := split; [vm_compute; intuition discriminate|repeat split; apply no_occ; vm_compute; reflexivity].
Example C35_example :
  by_line demo_edits /\ Forall (edit_ok (length demo)) demo_edits /\ Forall plain demo /\
  exists out, apply_lines demo demo_edits = Some out /\ length out = 18 /\
    unpatch (text out) = Some (text [#"package main"; []; []; #"func f() {"; []; []; #"  g()"; []; []; #"}"]).
Proof.
  split; [repeat constructor|]. split; [|split].
  - repeat constructor; try lia; try discriminate; try (vm_compute; intuition discriminate); apply no_occ; vm_compute; reflexivity.
  - repeat constructor; try (vm_compute; intuition discriminate); apply no_occ; vm_compute; reflexivity.
  - eexists. repeat split; vm_compute; reflexivity.
Qed.

(** ** C54: matching the nodes of the patch *)
Section Match.
  Context {A : Type} (same : A -> A -> bool).
  (** [is] gives for each patch node the index of a source node, in order. *)
  Definition follows (src pat : list A) (is_ : list nat) : Prop :=
    length is_ = length pat /\
    (forall i x, nth_error pat i = Some x -> exists k y, nth_error is_ i = Some k /\ nth_error src k = Some y /\ same y x = true) /\
    (forall i k k', nth_error is_ i = Some k -> nth_error is_ (S i) = Some k' -> k <= k').
  Lemma find_match_spec l x : match find_match same l x with
    | Some m => (exists y, nth_error l m = Some y /\ same y x = true) /\ forall j y, j < m -> nth_error l j = Some y -> same y x = false
    | None => forall y, In y l -> same y x = false end.
  Proof.
    induction l as [|y l IH]; cbn [find_match]; [intros y []|]. destruct (same y x) eqn:E.
    - split; [exists y; auto|]. intros j z H. lia.
    - destruct (find_match same l x) as [m|]; cbn [option_map].
      + destruct IH as [(z & Hz & Sz) L]. split; [exists z; auto|]. intros [|j] w Hj Hw; [cbn in Hw; congruence|]. apply (L j w); auto. lia.
      + intros z [->|I]; auto.
  Qed.
  Lemma nth_skipn {B} (l : list B) n : forall k, nth_error (skipn n l) k = nth_error l (n + k).
  Proof. revert l. induction n as [|n IH]; intros [|x l] k; cbn; auto. now destruct k. Qed.
  Lemma match_sound src : forall pat base is_, match_nodes same (skipn base src) base pat = Some is_ ->
    follows src pat is_ /\ (forall k, nth_error is_ 0 = Some k -> base <= k) /\
    (forall i k x, nth_error is_ i = Some k -> nth_error pat i = Some x ->
       forall j y, (match i with 0 => base | S i' => match nth_error is_ i' with Some p => p | None => 0 end end) <= j -> j < k -> nth_error src j = Some y -> same y x = false).
  Proof.
    induction pat as [|x pat IH]; intros base is_ H; cbn [match_nodes] in H.
    - injection H as <-. split; [|split; [discriminate|intros [|i] k y E; discriminate]]. split; auto. split; [intros [|i] y E; discriminate|intros [|i] k k' E; discriminate].
    - destruct (skipn base src) as [|s0 sr] eqn:Sk; [discriminate|]. rewrite <- Sk in H. pose proof (find_match_spec (skipn base src) x) as FM.
      destruct (find_match same (skipn base src) x) as [m|]; [|discriminate]. destruct FM as [(y & Hy & Sy) L].
      assert (SS : skipn m (skipn base src) = skipn (base + m) src).
      { clear. revert base. induction src as [|z src IHs]; intros base; [now rewrite !skipn_nil|]. destruct base; cbn [skipn Nat.add]; auto. }
      rewrite SS in H. destruct (match_nodes same (skipn (base + m) src) (base + m) pat) as [is'|] eqn:M; [|discriminate]. cbn [option_map] in H. injection H as <-.
      apply IH in M as ((M1 & M2 & M3) & M4 & M5). rewrite nth_skipn in Hy. split; [|split].
      + split; [cbn; lia|]. split.
        * intros [|i] z Hz; [cbn in Hz; injection Hz as <-; exists (base + m), y; auto|]. apply M2, Hz.
        * intros [|i] k k' Hk Hk'; [cbn in Hk, Hk'; injection Hk as <-; now apply M4|]. now apply (M3 i).
      + intros k [= <-]. lia.
      + intros [|i] k z Hk Hz j w B1 B2 Hw.
        * cbn in Hk, Hz. injection Hk as <-. injection Hz as <-. apply (L (j - base) w); [lia|]. rewrite nth_skipn. now replace (base + (j - base)) with j by lia.
        * apply (M5 i k z Hk Hz j w); auto. destruct i; exact B1.
  Qed.
  Lemma match_complete src : forall pat base is_, follows src pat is_ -> (forall k, nth_error is_ 0 = Some k -> base <= k) -> exists r, match_nodes same (skipn base src) base pat = Some r.
  Proof.
    induction pat as [|x pat IH]; intros base is_ (F1 & F2 & F3) B; cbn [match_nodes]; [now exists []|].
    destruct (F2 0 x eq_refl) as (k & y & Hk & Hy & Sy). pose proof (B k Hk) as Bk.
    assert (I : nth_error (skipn base src) (k - base) = Some y) by (rewrite nth_skipn; now replace (base + (k - base)) with k by lia).
    destruct (skipn base src) as [|s0 sr] eqn:Sk; [destruct (k - base); discriminate|]. rewrite <- Sk in *.
    pose proof (find_match_spec (skipn base src) x) as FM. destruct (find_match same (skipn base src) x) as [m|].
    - destruct FM as [(z & Hz & Sz) L]. assert (SS : skipn m (skipn base src) = skipn (base + m) src).
      { clear. revert base. induction src as [|w src IHs]; intros base; [now rewrite !skipn_nil|]. destruct base; cbn [skipn Nat.add]; auto. }
      rewrite SS. assert (Mk : base + m <= k). { destruct (le_lt_dec (base + m) k); auto. exfalso. rewrite (L (k - base) y) in Sy; [discriminate|lia|auto]. }
      destruct is_ as [|k0 is']; [discriminate|]. cbn in Hk. injection Hk as ->.
      destruct (IH (base + m) is') as (r & Hr).
      + split; [cbn in F1; lia|]. split; [intros i z' Hz'; apply (F2 (S i) z' Hz')|intros i a b Ha Hb; apply (F3 (S i) a b Ha Hb)].
      + intros k' Hk'. specialize (F3 0 k k' eq_refl Hk'). lia.
      + rewrite Hr. cbn. eauto.
    - exfalso. apply nth_error_In in I. rewrite (FM y I) in Sy. discriminate.
  Qed.
End Match.
(** Patch nodes are matched in order, each to the first source node that fits from the last
    match on; if there is any way to match them in order, they are matched, otherwise the
    patch is refused; and two patch nodes that no source node could both match are matched to
    different ones. *)
Theorem C54_matching_partial :
  forall (A : Type) (same : A -> A -> bool) src pat,
    (forall r, match_nodes same src 0 pat = Some r -> follows same src pat r) /\
    (match_nodes same src 0 pat = None <-> forall r, ~ follows same src pat r) /\
    (forall r i j k, match_nodes same src 0 pat = Some r -> i < j -> nth_error r i = Some k -> nth_error r j = Some k ->
       exists x x' y, nth_error pat i = Some x /\ nth_error pat (S i) = Some x' /\ In y src /\ same y x = true /\ same y x' = true).
Proof.
  intros A same src pat. split; [|split].
  - intros r H. apply (match_sound same src pat 0 r H).
  - split.
    + intros H r F. destruct (match_complete same src pat 0 r F) as (q & Hq); [intros; lia|]. cbn [skipn] in Hq. congruence.
    + intros H. destruct (match_nodes same src 0 pat) as [r|] eqn:E; auto. exfalso. apply (H r). apply (match_sound same src pat 0 r E).
  - intros r i j k H L Hi Hj. destruct (match_sound same src pat 0 r H) as ((F1 & F2 & F3) & _).
    assert (Mono : forall a b ka kb, a <= b -> nth_error r a = Some ka -> nth_error r b = Some kb -> ka <= kb).
    { intros a b ka kb Hab Ha Hb. revert kb Hb. induction Hab as [|b Hab IH]; intros kb Hb; [replace ka with kb by congruence; lia|].
      destruct (nth_error r b) as [q|] eqn:Q; [specialize (IH q eq_refl); specialize (F3 b q kb Q Hb); lia|].
      apply nth_error_None in Q. assert (S b < length r) by (apply nth_error_Some; congruence). lia. }
    assert (Li : S i < length r) by (assert (j < length r) by (apply nth_error_Some; congruence); lia).
    destruct (nth_error r (S i)) as [k'|] eqn:E; [|apply nth_error_None in E; lia].
    assert (k' = k). { pose proof (F3 i k k' Hi E). pose proof (Mono (S i) j k' k ltac:(lia) E Hj). lia. } subst k'.
    destruct (nth_error pat i) as [x|] eqn:X; [|apply nth_error_None in X; lia]. destruct (nth_error pat (S i)) as [x'|] eqn:X'; [|apply nth_error_None in X'; lia].
    destruct (F2 i x X) as (a & y & Ha & Hy & Sy). destruct (F2 (S i) x' X') as (b & y' & Hb & Hy' & Sy').
    assert (a = k) by congruence. assert (b = k) by congruence. subst. assert (y' = y) by congruence. subst.
    exists x, x', y. repeat split; auto. now apply nth_error_In in Hy.
Qed.
Print Assumptions C54_matching_partial.
(** But two equal statements of the patch are both matched to the first one. *)
Theorem C54_matching_refuted :
  ~ (forall src pat r i j k, match_nodes Nat.eqb src 0 pat = Some r -> i <> j -> nth_error r i = Some k -> nth_error r j <> Some k).
Proof. intros H. apply (H [7; 7] [7; 7] [0; 0] 0 1 0); auto. Qed.
Print Assumptions C54_matching_refuted.

(** ** C55: patch instructions *)
(** An instruction: what to do, under which id, with which text: the rest of its line and
    further lines. *)
Record instr := { i_kind : kind; i_id : bytes; i_first : bytes; i_more : list bytes }.
Definition written (i : instr) : list bytes :=
  (match i_kind i with KAppend => #"append" | KPrepend => #"prepend" | KReplace => #"replace" end ++ #" <" ++ i_id i ++ #">" ++ i_first i) :: map (app #" ") (i_more i).
Definition space (c : ascii) : Prop := In c [" "%char; "009"%char; "010"%char; "011"%char; "012"%char; "013"%char].
Definition ends_clean (s : bytes) : Prop := forall a c, s = a ++ [c] -> ~ space c.
Definition begins_clean (s : bytes) : Prop := forall a c, s = c :: a -> ~ space c.
Definition instr_ok (i : instr) : Prop :=
  i_id i <> [] /\ ~ In ">"%char (i_id i) /\ ends_clean (i_first i) /\
  Forall (fun l => l <> [] /\ l <> #"..." /\ begins_clean l /\ ends_clean l) (i_more i).
Definition same_kind (k : kind) (i : instr) : bool := match k, i_kind i with KAppend, KAppend | KPrepend, KPrepend | KReplace, KReplace => true | _, _ => false end.

Lemma is_sp_iff c : is_sp c = true <-> space c.
Proof.
  unfold is_sp, space. rewrite existsb_exists. split.
  - intros (x & I & E). apply eqc_eq in E. subst x. cbn in I. destruct I as [<-|[<-|[<-|[<-|[<-|[<-|[]]]]]]]; cbn; tauto.
  - intros I. exists c. split; [|apply eqc_refl]. cbn in I |- *. tauto.
Qed.
Lemma drop_sp_id s : begins_clean s -> drop_sp s = s.
Proof. intros H. destruct s as [|c s]; auto. cbn [drop_sp]. destruct (is_sp c) eqn:E; auto. apply is_sp_iff in E. exfalso. exact (H s c eq_refl E). Qed.
Lemma ends_rev s : ends_clean s -> begins_clean (rev s).
Proof. intros H a c E. apply (H (rev a) c). rewrite <- (rev_involutive s), E. reflexivity. Qed.
Lemma trim_id s : begins_clean s -> ends_clean s -> trim_space s = s.
Proof. intros B E. unfold trim_space. rewrite (drop_sp_id s B). rewrite drop_sp_id by now apply ends_rev. apply rev_involutive. Qed.
Lemma trim_cons c s : space c -> trim_space (c :: s) = trim_space s.
Proof. intros H. unfold trim_space. cbn [drop_sp]. apply is_sp_iff in H. now rewrite H. Qed.
Lemma ends_app a b : b <> [] -> ends_clean b -> ends_clean (a ++ b).
Proof.
  intros N E x c H. destruct (exists_last N) as (b' & d & ->). rewrite app_assoc in H. apply app_inj_tail in H as [_ ->]. apply (E b' c eq_refl).
Qed.
Lemma ends_mid a b : (b = [] -> ends_clean a) -> ends_clean b -> ends_clean (a ++ b).
Proof. intros H E. destruct b; [rewrite app_nil_r; auto|]. apply ends_app; auto. discriminate. Qed.
Lemma kw_clean k s : begins_clean (kind_word k ++ s).
Proof. intros a c E. destruct k; cbn in E; injection E as <- _; vm_compute; intuition discriminate. Qed.
Lemma try_self k id s : id <> [] -> ~ In ">"%char id -> ends_clean s -> try_command (kind_word k ++ #" <" ++ id ++ #">" ++ s) k = Some (Some (id, s)).
Proof.
  intros Ni Ng E. unfold try_command. change #" <" with (#" " ++ #"<"). rewrite <- (app_assoc #" "), (app_assoc (kind_word k)). rewrite has_prefix_app. cbn [negb].
  rewrite skipn_app_exact by reflexivity. rewrite trim_id.
  - change (#"<" ++ id ++ #">" ++ s) with ("<"%char :: id ++ #">" ++ s). cbv iota beta. rewrite eqc_refl.
    rewrite (index_unbordered id #">" s); [|apply unbordered_first; intros []|intros (a & b & H); apply Ng; rewrite H; apply in_or_app; right; now left].
    rewrite firstn_app_exact by reflexivity. change (#">" ++ s) with (">"%char :: s). replace (id ++ ">"%char :: s) with ((id ++ [">"%char]) ++ s) by now rewrite <- app_assoc.
    rewrite skipn_app_exact by (rewrite app_length; cbn; lia). reflexivity.
  - intros a c Hc. injection Hc as <- _. vm_compute. intuition discriminate.
  - replace (#"<" ++ id ++ #">" ++ s) with ((#"<" ++ id ++ #">") ++ s) by (rewrite <- !app_assoc; reflexivity). apply ends_mid; auto.
    intros _ a c Hc. rewrite app_assoc in Hc. apply app_inj_tail in Hc as [_ <-]. vm_compute. intuition discriminate.
Qed.
Lemma first_self k id s : id <> [] -> ~ In ">"%char id -> ends_clean s -> first_command (kind_word k ++ #" <" ++ id ++ #">" ++ s) [KAppend; KPrepend; KReplace] = Some (Some (k, id, s)).
Proof.
  intros Ni Ng E. cbn [first_command]. destruct k.
  - rewrite try_self; auto.
  - replace (try_command (kind_word KPrepend ++ #" <" ++ id ++ #">" ++ s) KAppend) with (@None (option (bytes * bytes))) by reflexivity. rewrite try_self; auto.
  - replace (try_command (kind_word KReplace ++ #" <" ++ id ++ #">" ++ s) KAppend) with (@None (option (bytes * bytes))) by reflexivity.
    replace (try_command (kind_word KReplace ++ #" <" ++ id ++ #">" ++ s) KPrepend) with (@None (option (bytes * bytes))) by reflexivity. rewrite try_self; auto.
Qed.
Lemma get_set k x c : get_cmd k (set_cmd k x c) = x. Proof. destruct k; reflexivity. Qed.
Lemma set_set k x y c : set_cmd k x (set_cmd k y c) = set_cmd k x c. Proof. destruct k; reflexivity. Qed.
Lemma loop_more k more : Forall (fun l => l <> [] /\ l <> #"..." /\ begins_clean l /\ ends_clean l) more -> forall rest id ls c,
  parse_loop (map (app #" ") more ++ rest) (Some k) (set_cmd k {| p_id := id; p_lines := ls |} c) = parse_loop rest (Some k) (set_cmd k {| p_id := id; p_lines := ls ++ more |} c).
Proof.
  induction 1 as [|l more (H1 & H2 & H3 & H4) F IH]; intros rest id ls c; [now rewrite app_nil_r|].
  cbn [map app parse_loop]. change (#" " ++ l) with (" "%char :: l). rewrite trim_cons by (vm_compute; auto). rewrite trim_id by auto. destruct l as [|c0 l0]; [congruence|].
  destruct (eqs (c0 :: l0) #"...") eqn:E; [apply eqs_eq in E; congruence|]. cbn [has_prefix lit list_ascii_of_string]. rewrite eqc_refl. cbn [andb]. rewrite get_set, set_set. cbn [p_id p_lines].
  rewrite IH. now rewrite <- app_assoc.
Qed.
Definition id_for (k : kind) (is_ : list instr) : bytes := match filter (same_kind k) is_ with [] => [] | i :: _ => i_id i end.
Definition lines_for (k : kind) (is_ : list instr) : list bytes := flat_map (fun i => i_first i :: i_more i) (filter (same_kind k) is_).
Definition result (is_ : list instr) (c : pcmds) : Prop := forall k, get_cmd k c = {| p_id := id_for k is_; p_lines := lines_for k is_ |}.
Lemma same_kind_refl i : same_kind (i_kind i) i = true. Proof. unfold same_kind. now destruct (i_kind i). Qed.
Lemma same_kind_eq k i : same_kind k i = true <-> i_kind i = k. Proof. unfold same_kind. destruct k, (i_kind i); split; congruence. Qed.
Lemma loop_all todo : Forall instr_ok todo -> forall done last c, (forall i j, In i (done ++ todo) -> In j (done ++ todo) -> i_kind i = i_kind j -> i_id i = i_id j) -> Forall instr_ok done -> result done c ->
  exists c', parse_loop (flat_map written todo) last c = Some c' /\ result (done ++ todo) c'.
Proof.
  induction 1 as [|i todo (I1 & I2 & I3 & I4) F IH]; intros done last c C D R; [exists c; rewrite app_nil_r; auto|].
  assert (W : written i = (kind_word (i_kind i) ++ #" <" ++ i_id i ++ #">" ++ i_first i) :: map (app #" ") (i_more i)) by reflexivity.
  cbn [flat_map]. rewrite W. cbn [app parse_loop]. clear W. set (k := i_kind i) in *.
  set (line := kind_word k ++ #" <" ++ i_id i ++ #">" ++ i_first i).
  assert (T : trim_space line = line).
  { apply trim_id; [apply kw_clean|]. subst line. replace (kind_word k ++ #" <" ++ i_id i ++ #">" ++ i_first i) with ((kind_word k ++ #" <" ++ i_id i ++ #">") ++ i_first i) by now rewrite <- !app_assoc.
    apply ends_mid; auto. intros _ a ch Hc. rewrite !app_assoc in Hc. apply app_inj_tail in Hc as [_ <-]. vm_compute. intuition discriminate. }
  rewrite T. assert (Hq : forall q s, exists c0 l0, kind_word q ++ s = c0 :: l0 /\ In c0 #"apr").
  { intros [] s; [exists "a"%char|exists "p"%char|exists "r"%char]; eexists; (split; [reflexivity|vm_compute; tauto]). }
  assert (Hl : exists c0 l0, line = c0 :: l0 /\ In c0 #"apr") by apply Hq.
  destruct Hl as (c0 & l0 & Hl & Hc). rewrite Hl. cbv iota beta.
  assert (ND : eqs (c0 :: l0) #"..." = false) by (cbn in Hc; destruct Hc as [<-|[<-|[<-|[]]]]; reflexivity). rewrite ND.
  assert (NS : has_prefix (c0 :: l0) #" " = false) by (cbn in Hc; destruct Hc as [<-|[<-|[<-|[]]]]; reflexivity). rewrite NS. rewrite <- Hl. subst line. rewrite first_self by auto.
  cbv zeta. rewrite (R k). cbn [p_id p_lines].
  assert (G : parse_loop (map (app #" ") (i_more i) ++ flat_map written todo) (Some k) (set_cmd k {| p_id := i_id i; p_lines := lines_for k done ++ [i_first i] |} c) =
              parse_loop (flat_map written todo) (Some k) (set_cmd k {| p_id := i_id i; p_lines := lines_for k (done ++ [i]) |} c)).
  { rewrite loop_more by auto. do 2 f_equal. f_equal. unfold lines_for. rewrite filter_app, flat_map_app. cbn [filter]. subst k. rewrite same_kind_refl. cbn [flat_map]. rewrite app_nil_r, <- app_assoc. reflexivity. }
  assert (R' : result (done ++ [i]) (set_cmd k {| p_id := i_id i; p_lines := lines_for k (done ++ [i]) |} c)).
  { intros q. destruct (same_kind q i) eqn:Q.
    - apply same_kind_eq in Q. fold k in Q. subst q. rewrite get_set. f_equal. unfold id_for. rewrite filter_app. cbn [filter]. subst k. rewrite same_kind_refl.
      destruct (filter (same_kind (i_kind i)) done) as [|j js] eqn:Fj; auto. cbn [app].
      assert (Ij : In j (filter (same_kind (i_kind i)) done)) by (rewrite Fj; now left). apply filter_In in Ij as [Ij Kj]. apply same_kind_eq in Kj.
      symmetry. apply C; [apply in_or_app; now left|apply in_or_app; right; now left|auto].
    - assert (Nk : q <> k) by (intros ->; unfold k in Q; rewrite same_kind_refl in Q; discriminate).
      replace (get_cmd q (set_cmd k {| p_id := i_id i; p_lines := lines_for k (done ++ [i]) |} c)) with (get_cmd q c) by (destruct q, k; congruence || reflexivity).
      rewrite (R q). unfold id_for, lines_for. rewrite filter_app. cbn [filter]. rewrite Q, app_nil_r. reflexivity. }
  assert (Fin : exists c', parse_loop (flat_map written todo) (Some k) (set_cmd k {| p_id := i_id i; p_lines := lines_for k (done ++ [i]) |} c) = Some c' /\ result (done ++ i :: todo) c').
  { replace (done ++ i :: todo) with ((done ++ [i]) ++ todo) by now rewrite <- app_assoc. apply IH; auto.
    - replace ((done ++ [i]) ++ todo) with (done ++ i :: todo) by now rewrite <- app_assoc. exact C.
    - apply Forall_app. split; auto. repeat constructor; auto. }
  destruct (i_id i) as [|ci li] eqn:Ei; [congruence|].
  destruct (id_for k done) as [|d0 dl] eqn:Ed; [destruct Fin as (c' & Q1 & Q2); exists c'; split; auto; etransitivity; [exact G|exact Q1]|].
  assert (Same : d0 :: dl = i_id i).
  { unfold id_for in Ed. destruct (filter (same_kind k) done) as [|j js] eqn:Fj; [discriminate|]. assert (Ij : In j (filter (same_kind k) done)) by (rewrite Fj; now left).
    apply filter_In in Ij as [Ij Kj]. apply same_kind_eq in Kj. rewrite <- Ed. apply C; [apply in_or_app; now left|apply in_or_app; right; now left|auto]. }
  match goal with |- context [eqs ?x ?y] => replace (eqs x y) with true by (symmetry; apply eqs_eq; congruence) end. replace (d0 :: dl) with (ci :: li) by congruence. destruct Fin as (c' & Q1 & Q2); exists c'; split; auto; etransitivity; [exact G|exact Q1].
Qed.
(** Instructions are read as they were written: for each kind of edit, one edit with all its
    lines, in order, under its id. *)
Theorem C55_instructions_partial :
  forall is_ line, Forall instr_ok is_ -> (forall i j, In i is_ -> In j is_ -> i_kind i = i_kind j -> i_id i = i_id j) ->
  forall e, In e (node_edits (flat_map written is_) line) <->
    exists k, filter (same_kind k) is_ <> [] /\
      e = {| l_id := id_for k is_; l_line := line;
             l_prepend := match k with KPrepend => lines_for k is_ | _ => [] end;
             l_append := match k with KAppend => lines_for k is_ | _ => [] end;
             l_replace := match k with KReplace => lines_for k is_ | _ => [] end |}.
Proof.
  intros is_ line F C e. destruct (loop_all is_ F [] None no_cmds C) as (c & P & R); [constructor|intros []; reflexivity|]. cbn [app] in R.
  assert (LN : forall k, lines_for k is_ = [] <-> filter (same_kind k) is_ = []).
  { intros k. unfold lines_for. destruct (filter (same_kind k) is_); cbn; split; intros; congruence. }
  assert (HI : forall k, has_id (get_cmd k c) = true).
  { intros k. rewrite (R k). unfold has_id. cbn [p_lines p_id]. destruct (lines_for k is_) eqn:L; auto. unfold id_for. destruct (filter (same_kind k) is_) as [|j js] eqn:Fj.
    - apply LN in Fj. congruence.
    - assert (Ij : In j (filter (same_kind k) is_)) by (rewrite Fj; now left). apply filter_In in Ij as [Ij _]. rewrite Forall_forall in F. destruct (F j Ij) as (N & _). destruct (i_id j); [congruence|reflexivity]. }
  assert (PC : parse_comments (flat_map written is_) = Some c).
  { unfold parse_comments. rewrite P. pose proof (HI KAppend) as A1. pose proof (HI KPrepend) as A2. pose proof (HI KReplace) as A3. cbn [get_cmd] in *. now rewrite A1, A2, A3. }
  assert (RA := R KAppend). assert (RP := R KPrepend). assert (RR := R KReplace). cbn [get_cmd] in RA, RP, RR.
  unfold node_edits. destruct (flat_map written is_) as [|w ws] eqn:W.
  - destruct is_ as [|i is']; [|discriminate]. cbn. split; [tauto|]. intros (k & N & _). destruct k; now destruct N.
  - rewrite PC, RA, RP, RR. cbn [p_lines p_id]. rewrite !in_app_iff. split.
    + intros [I|[I|I]].
      * exists KAppend. destruct (lines_for KAppend is_) eqn:L; [destruct I|]. destruct I as [<-|[]]. split; auto. intros N. apply LN in N. congruence.
      * exists KPrepend. destruct (lines_for KPrepend is_) eqn:L; [destruct I|]. destruct I as [<-|[]]. split; auto. intros N. apply LN in N. congruence.
      * exists KReplace. destruct (lines_for KReplace is_) eqn:L; [destruct I|]. destruct I as [<-|[]]. split; auto. intros N. apply LN in N. congruence.
    + intros (k & N & ->). rewrite <- LN in N. destruct k; [left|right; left|right; right].
      * destruct (lines_for KAppend is_) eqn:L; [now destruct N|now left].
      * destruct (lines_for KPrepend is_) eqn:L; [now destruct N|now left].
      * destruct (lines_for KReplace is_) eqn:L; [now destruct N|now left].
Qed.
Print Assumptions C55_instructions_partial.
Example C55_example :
  let is_ := [ {| i_kind := KAppend; i_id := #"log"; i_first := #" x()"; i_more := [#"y()"] |}; {| i_kind := KReplace; i_id := #"r"; i_first := #"z()"; i_more := [] |} ] in
  Forall instr_ok is_ /\ node_edits (flat_map written is_) 4 =
   [ {| l_id := #"log"; l_line := 4; l_prepend := []; l_append := [#" x()"; #"y()"]; l_replace := [] |};
     {| l_id := #"r"; l_line := 4; l_prepend := []; l_append := []; l_replace := [#"z()"] |} ].
Proof.
  cbv zeta. split; [|vm_compute; reflexivity].
  assert (E : forall s c, ~ space c -> ends_clean (s ++ [c])) by (intros s c H a d Q; apply app_inj_tail in Q as [_ <-]; auto).
  repeat constructor; try discriminate; try (vm_compute; intuition discriminate).
  - apply (E #" x("). vm_compute. intuition discriminate.
  - intros a c Q. injection Q as <- _. vm_compute. intuition discriminate.
  - apply (E #"y("). vm_compute. intuition discriminate.
  - apply (E #"z("). vm_compute. intuition discriminate.
Qed.
(** Instructions that cannot be read are dropped without an error: an id given twice
    differently, or none, and the node is not patched at all. *)
Theorem C55_instructions_refuted :
  ~ (forall comments line, comments <> [] -> (exists l k, In l comments /\ has_prefix l (kind_word k ++ #" ") = true) -> node_edits comments line <> []).
Proof.
  intros H. apply (H [#"append <a> x()"; #"replace y()"] 4); [discriminate| |vm_compute; reflexivity].
  exists #"append <a> x()", KAppend. split; [now left|reflexivity].
Qed.
Print Assumptions C55_instructions_refuted.
