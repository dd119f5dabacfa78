(** * C53: line edits without marks, and edits that are refused; C55: instructions that cannot be
    read.  Model: M_LinePatch. *)
From Coq Require Import Ascii String List Arith Bool Sorted Lia.
From Verif Require Import M_Str M_Patch M_LinePatch P_Str P_Patch T_LinePatch T_LinePatch2.
Import ListNotations.
Open Scope nat_scope.

(** ** C53: edits without an id *)
(** What stands for line [l]: the texts put before it, the line or its replacements, the texts
    put after it; nothing is marked, a replaced line is gone. *)
Definition plain_for (es : list ledit) (l : bytes) : list bytes :=
  flat_map l_prepend es ++ (match flat_map l_replace es with [] => [l] | new => new end) ++ flat_map l_append es.
Fixpoint plain_lines (k : nat) (lines : list bytes) (es : list ledit) : list bytes :=
  match lines with [] => [] | l :: r => plain_for (filter (fun e => l_line e =? k) es) l ++ plain_lines (S k) r es end.

Lemma plain_region (f : ledit -> list bytes) es : Forall (fun e => l_id e = []) es -> flat_map (fun e => region (l_id e) (f e)) es = flat_map f es.
Proof. induction 1 as [|e es N F IH]; auto. cbn [flat_map]. rewrite IH, N. now destruct (f e). Qed.
Lemma plain_replacing es : Forall (fun e => l_id e = []) es -> flat_map (fun e => region (l_id e) (l_replace e)) (replacing es) = flat_map l_replace es.
Proof. intros F. rewrite replacing_regions. now apply plain_region. Qed.
Lemma plain_mid lines cursor es l : Forall (fun e => l_id e = []) es -> nth_error lines (cursor - 1) = Some l ->
  line_or_replaced lines cursor es = Some (match flat_map l_replace es with [] => [l] | new => new end).
Proof.
  intros F E. unfold line_or_replaced. rewrite E. rewrite plain_replacing by auto. destruct (rev (replacing es)) as [|e r] eqn:R.
  - assert (replacing es = []) as Z by (rewrite <- (rev_involutive (replacing es)), R; reflexivity).
    rewrite <- plain_replacing, Z by auto. reflexivity.
  - assert (I : In e (replacing es)) by (apply in_rev; rewrite R; now left). apply filter_In in I as (I & Q).
    rewrite Forall_forall in F. rewrite (F e I). destruct (flat_map l_replace es) eqn:Z; auto. exfalso.
    destruct (l_replace e) as [|x y] eqn:Le; [discriminate|]. assert (In x (flat_map l_replace es)) by (apply in_flat_map; exists e; split; auto; rewrite Le; now left).
    rewrite Z in *. contradiction.
Qed.
Lemma plain_skip d : forall k lines es, Forall (fun e => k + d <= l_line e) es -> d <= length lines ->
  plain_lines k lines es = firstn d lines ++ plain_lines (k + d) (skipn d lines) es.
Proof.
  induction d as [|d IH]; intros k lines es F L.
  - now rewrite Nat.add_0_r.
  - destruct lines as [|l lines]; [simpl in L; lia|]. cbn [plain_lines firstn skipn]. fold (at_line k es). rewrite at_line_none by (eapply Forall_impl; [|exact F]; cbv beta; intros; lia).
    change (plain_for [] l) with [l]. cbn [app]. rewrite (IH (S k)); [|eapply Forall_impl; [|exact F]; cbv beta; intros; lia|simpl in L; lia].
    now rewrite Nat.add_succ_r.
Qed.
Lemma plain_later lines : forall k es es', (forall j, k <= j -> at_line j es = at_line j es') -> plain_lines k lines es = plain_lines k lines es'.
Proof. induction lines as [|l lines IH]; intros k es es' H; auto. cbn [plain_lines]. fold (at_line k es) (at_line k es'). rewrite (H k) by lia. f_equal. apply IH. intros. apply H. lia. Qed.
Lemma same_line_shorter line : forall l a b, same_line line l = (a, b) -> length b <= length l.
Proof.
  induction l as [|x l IHl]; intros a b E; cbn [same_line] in E; [injection E as <- <-; auto|]. destruct (l_line x =? line).
  - destruct (same_line line l) as [a' b'] eqn:E'. injection E as <- <-. specialize (IHl _ _ eq_refl). cbn. lia.
  - injection E as <- <-. auto.
Qed.
Lemma apply_plain fuel : forall lines cursor es, length es <= fuel -> 1 <= cursor <= S (length lines) -> by_line es ->
  Forall (fun e => cursor <= l_line e <= length lines /\ l_id e = []) es ->
  apply_sorted_lines fuel lines cursor es = Some (plain_lines cursor (skipn (cursor - 1) lines) es).
Proof.
  induction fuel as [|fuel IH]; intros lines cursor es Lf C B F.
  - destruct es; [|simpl in Lf; lia]. cbn [apply_sorted_lines]. destruct (Nat.leb_spec (cursor - 1) (length lines)); [|lia].
    rewrite (plain_skip (length (skipn (cursor - 1) lines))) by auto. rewrite firstn_all, skipn_all. cbn. now rewrite app_nil_r.
  - destruct es as [|e es].
    + cbn [apply_sorted_lines]. destruct (Nat.leb_spec (cursor - 1) (length lines)); [|lia].
      rewrite (plain_skip (length (skipn (cursor - 1) lines))) by auto. rewrite firstn_all, skipn_all. cbn. now rewrite app_nil_r.
    + cbn [apply_sorted_lines]. inversion F as [|? ? [He Ne] F']; subst. destruct (Nat.ltb_spec (length lines) (l_line e)); [lia|].
      set (line := l_line e) in *. rewrite Nat.max_r by lia.
      assert (Fl : Forall (fun x => line <= l_line x) (e :: es)).
      { constructor; auto. inversion B; subst. auto. }
      destruct (same_line line (e :: es)) as [same rest] eqn:S1. destruct (same_line_spec line (e :: es) B Fl same rest S1) as (Es & Br & Fr & Ar & Lr & Ir).
      assert (SR : length rest <= fuel).
      { cbn [same_line] in S1. fold line in S1. rewrite Nat.eqb_refl in S1. destruct (same_line line es) as [a b] eqn:S2. injection S1 as <- <-.
        apply same_line_shorter in S2. simpl in Lf. lia. }
      set (d := line - cursor).
      rewrite (plain_skip d); [|eapply Forall_impl; [|exact Fl]; cbv beta; intros; subst d; lia|rewrite skipn_length; subst d; lia].
      replace (cursor + d) with line by (subst d; lia).
      assert (SS : skipn d (skipn (cursor - 1) lines) = skipn (line - 1) lines).
      { assert (G : forall (l : list bytes) a b, skipn a (skipn b l) = skipn (b + a) l) by (clear; induction l as [|x l IHl]; intros a b; [now rewrite !skipn_nil|]; destruct b; cbn [skipn Nat.add]; auto).
        rewrite G. f_equal. subst d. lia. }
      rewrite SS.
      destruct (nth_error lines (line - 1)) as [l|] eqn:N; [|apply nth_error_None in N; lia].
      assert (SK : skipn (line - 1) lines = l :: skipn line lines).
      { replace line with (S (line - 1)) at 2 by lia. revert N. generalize (line - 1). clear. induction lines as [|x lines IHl]; intros [|n] N; cbn in *; try discriminate; [congruence|now apply IHl]. }
      rewrite SK. cbn [plain_lines]. fold (at_line line (e :: es)). rewrite <- Es.
      assert (Fs : Forall (fun e => l_id e = []) same).
      { rewrite Es. apply Forall_forall. intros x Hx. apply filter_In in Hx as [Hx _]. rewrite Forall_forall in F. now apply F. }
      rewrite (plain_mid lines line same l Fs N).
      rewrite (IH lines (S line) rest); auto; [|lia|].
      * cbn [option_map]. apply f_equal. replace (S line - 1) with line by lia. rewrite (plain_later _ (S line) (e :: es) rest) by (intros; apply Ar; lia).
        unfold plain_for. rewrite !plain_region by auto. rewrite <- !app_assoc. f_equal. destruct (Nat.ltb_spec cursor line); [f_equal; subst d; lia|]. replace d with 0 by (subst d; lia). reflexivity.
      * apply Forall_forall. intros x Hx. rewrite Forall_forall in F, Fr. specialize (F x (Ir x Hx)). specialize (Fr x Hx). cbv beta in *. split; [lia|tauto].
Qed.
Theorem C53_plain_edits :
  forall lines es, by_line es -> Forall (fun e => 1 <= l_line e <= length lines /\ l_id e = []) es ->
  apply_lines lines es = Some (plain_lines 1 lines es).
Proof. intros lines es B F. unfold apply_lines. rewrite apply_plain; auto. lia. Qed.
Print Assumptions C53_plain_edits.
Example C53_plain_example :
  let e := {| l_id := []; l_line := 2; l_prepend := [#"x"]; l_append := []; l_replace := [] |} in
  let f := {| l_id := []; l_line := 2; l_prepend := []; l_append := []; l_replace := [#"y"; #"z"] |} in
  by_line [e; f] /\ apply_lines [#"a"; #"b"; #"c"] [e; f] = Some [#"a"; #"x"; #"y"; #"z"; #"c"].
Proof. cbv zeta. split; [repeat constructor|reflexivity]. Qed.

(** An edit of a line that the file does not have is an error, with or without marks. *)
Lemma apply_beyond fuel : forall lines cursor es, length es <= fuel -> by_line es ->
  (exists e, In e es /\ length lines < l_line e) -> apply_sorted_lines fuel lines cursor es = None.
Proof.
  induction fuel as [|fuel IH]; intros lines cursor es Lf B (e & I & L); (destruct es as [|e0 es]; [contradiction|]); [simpl in Lf; lia|].
  cbn [apply_sorted_lines]. destruct (Nat.ltb_spec (length lines) (l_line e0)) as [|L0]; auto.
  assert (Fl : Forall (fun x => l_line e0 <= l_line x) (e0 :: es)) by (constructor; auto; inversion B; subst; auto).
  destruct (same_line (l_line e0) (e0 :: es)) as [same rest] eqn:S1. destruct (same_line_spec _ _ B Fl same rest S1) as (Es & Br & Fr & Ar & Lr & Ir).
  destruct (line_or_replaced _ _ _); auto. rewrite IH; auto.
  - cbn [same_line] in S1. rewrite Nat.eqb_refl in S1. destruct (same_line (l_line e0) es) as [a b] eqn:S2. injection S1 as <- <-.
    apply same_line_shorter in S2. simpl in Lf. lia.
  - exists e. split; auto. assert (X : In e (at_line (l_line e) (e0 :: es))) by (apply filter_In; split; auto; apply Nat.eqb_refl).
    rewrite Ar in X by lia. now apply filter_In in X.
Qed.
Theorem C53_beyond_the_file :
  forall lines es, by_line es -> (exists e, In e es /\ length lines < l_line e) -> apply_lines lines es = None.
Proof. intros. unfold apply_lines. now apply apply_beyond. Qed.
Print Assumptions C53_beyond_the_file.

(** ** C55: what cannot be read is an error of the parser *)
Lemma loop_bad line : (forall rest last c, parse_loop (line :: rest) last c = None) -> forall before rest last c, parse_loop (before ++ line :: rest) last c = None.
Proof.
  intros H. induction before as [|x before IH]; intros rest last c; [apply H|]. cbn [app parse_loop].
  destruct (trim_space x); auto. destruct (eqs _ _); auto. destruct (has_prefix x #" ").
  - destruct last; auto.
  - destruct (first_command x _) as [[[[k id] content]|]|]; auto. destruct id; auto. destruct (p_id _); auto. destruct (eqs _ _); auto.
Qed.
(** A line that counts: not blank, not three dots, not indented. *)
Definition counts (line : bytes) : Prop := trim_space line <> [] /\ trim_space line <> #"..." /\ has_prefix line #" " = false.
Lemma counts_loop line rest last c : counts line -> parse_loop (line :: rest) last c =
  match first_command line [KAppend; KPrepend; KReplace] with
  | None => None
  | Some None => None
  | Some (Some (k, id, content)) =>
      let x := get_cmd k c in
      match id, p_id x with
      | [], old => parse_loop rest (Some k) (set_cmd k {| p_id := old; p_lines := p_lines x ++ [content] |} c)
      | _, [] => parse_loop rest (Some k) (set_cmd k {| p_id := id; p_lines := p_lines x ++ [content] |} c)
      | _, old => if eqs old id then parse_loop rest (Some k) (set_cmd k {| p_id := old; p_lines := p_lines x ++ [content] |} c) else None
      end
  end.
Proof.
  intros (H1 & H2 & H3). cbn [parse_loop]. destruct (trim_space line) as [|c0 t] eqn:T; [congruence|]. apply eqs_false in H2. now rewrite H2, H3.
Qed.
Lemma kw_counts k s : counts (kind_word k ++ #" " ++ s).
Proof.
  assert (T : exists a b, trim_space (kind_word k ++ #" " ++ s) = a :: b /\ In a #"apr").
  { unfold trim_space. rewrite (drop_sp_id (kind_word k ++ #" " ++ s)) by apply kw_clean.
    assert (G : forall x c, ~ space c -> exists z, rev (drop_sp (rev (c :: x))) = c :: z).
    { intros x c N. cbn [rev]. generalize (rev x). intros y. induction y as [|d y IH]; cbn [app drop_sp].
      - destruct (is_sp c) eqn:E; [apply is_sp_iff in E; contradiction|]. cbn. now exists [].
      - destruct (is_sp d); auto. exists (rev (d :: y)). cbn [rev]. rewrite rev_app_distr. cbn [rev app]. reflexivity. }
    destruct k; cbn [kind_word]; [destruct (G (#"ppend" ++ #" " ++ s) "a"%char)|destruct (G (#"repend" ++ #" " ++ s) "p"%char)|destruct (G (#"eplace" ++ #" " ++ s) "r"%char)];
      try (vm_compute; intuition discriminate); eexists; eexists; (split; [eassumption|vm_compute; tauto]). }
  destruct T as (a & b & T & I). unfold counts. rewrite T. split; [discriminate|]. split.
  - cbn in I. destruct I as [<-|[<-|[<-|[]]]]; discriminate.
  - destruct k; reflexivity.
Qed.
Lemma kw_first k s : first_command (kind_word k ++ #" " ++ s) [KAppend; KPrepend; KReplace] =
  match try_command (kind_word k ++ #" " ++ s) k with None => None | Some None => Some None | Some (Some (id, content)) => Some (Some (k, id, content)) end.
Proof.
  cbn [first_command]. destruct k.
  - destruct (try_command (kind_word KAppend ++ #" " ++ s) KAppend) as [[[? ?]|]|] eqn:E; auto; reflexivity.
  - replace (try_command (kind_word KPrepend ++ #" " ++ s) KAppend) with (@None (option (bytes * bytes))) by reflexivity.
    destruct (try_command (kind_word KPrepend ++ #" " ++ s) KPrepend) as [[[? ?]|]|] eqn:E; auto; reflexivity.
  - replace (try_command (kind_word KReplace ++ #" " ++ s) KAppend) with (@None (option (bytes * bytes))) by reflexivity.
    replace (try_command (kind_word KReplace ++ #" " ++ s) KPrepend) with (@None (option (bytes * bytes))) by reflexivity.
    destruct (try_command (kind_word KReplace ++ #" " ++ s) KReplace) as [[[? ?]|]|] eqn:E; auto; reflexivity.
Qed.
(** Comments with a line that cannot be read. *)
Inductive unreadable : list bytes -> Prop :=
| URunknown before line after : counts line -> (forall k, has_prefix line (kind_word k ++ #" ") = false) -> unreadable (before ++ line :: after)
| URopen before k s after : ~ In ">"%char s -> unreadable (before ++ (kind_word k ++ #" <" ++ s) :: after)
| URfloating before l after : Forall (fun b => trim_space b = [] \/ trim_space b = #"...") before -> trim_space l <> [] -> trim_space l <> #"..." ->
    unreadable (before ++ (#" " ++ l) :: after)
| URids before k id1 s1 between id2 s2 after :
    id1 <> [] -> id2 <> [] -> id1 <> id2 -> ~ In ">"%char id1 -> ~ In ">"%char id2 -> ends_clean s1 -> ends_clean s2 ->
    unreadable (before ++ (kind_word k ++ #" <" ++ id1 ++ #">" ++ s1) :: between ++ (kind_word k ++ #" <" ++ id2 ++ #">" ++ s2) :: after).
Lemma has_id_kept k id id2 s2 after : id <> [] -> id2 <> [] -> id <> id2 -> ~ In ">"%char id2 -> ends_clean s2 ->
  forall between last c, p_id (get_cmd k c) = id -> parse_loop (between ++ (kind_word k ++ #" <" ++ id2 ++ #">" ++ s2) :: after) last c = None.
Proof.
  intros N N2 Ne G2 E2. induction between as [|x between IH]; intros last c P.
  - cbn [app]. change #" <" with (#" " ++ #"<"). rewrite <- (app_assoc #" "). rewrite counts_loop by apply kw_counts.
    change (kind_word k ++ #" " ++ #"<" ++ id2 ++ #">" ++ s2) with (kind_word k ++ #" <" ++ id2 ++ #">" ++ s2).
    rewrite first_self by auto. cbv zeta. rewrite P. destruct id2; [congruence|]. destruct id; [congruence|]. apply eqs_false in Ne. now rewrite Ne.
  - cbn [app parse_loop]. destruct (trim_space x) as [|t0 t]; auto. destruct (eqs _ _); auto.
    assert (Keep : forall q y, p_id (get_cmd q c) = p_id y \/ (p_id (get_cmd q c) = [] /\ q <> k) \/ (q = k /\ p_id y = id) -> p_id (get_cmd k (set_cmd q y c)) = id).
    { intros q y [Q|[(Q & D)|(-> & Q)]].
      - destruct q, k; cbn in *; congruence.
      - destruct q, k; cbn in *; congruence.
      - now rewrite get_set. }
    destruct (has_prefix x #" ").
    + destruct last; [|reflexivity]; apply IH, Keep; now left.
    + destruct (first_command x _) as [[[[q i] content]|]|]; [| |]; try reflexivity. destruct i as [|i0 i]; [apply IH, Keep; now left|].
      destruct (p_id (get_cmd q c)) as [|o0 o] eqn:Pq.
      * apply IH, Keep. right. left. split; auto. intros ->. congruence.
      * destruct (eqs _ _); [|reflexivity]. apply IH, Keep. left. exact Pq.
Qed.
Lemma trim_no c s : ~ In c s -> ~ In c (trim_space s).
Proof.
  assert (D : forall t, incl (drop_sp t) t) by (induction t as [|x t IH]; cbn [drop_sp]; [easy|]; destruct (is_sp x); [now apply incl_tl|apply incl_refl]).
  intros N I. apply N. unfold trim_space in I. apply in_rev in I. apply D in I. apply in_rev in I. now apply D in I.
Qed.
Theorem C55_unreadable :
  forall comments, unreadable comments -> parse_comments comments = None.
Proof.
  intros comments U. unfold parse_comments.
  replace (parse_loop comments None no_cmds) with (@None pcmds); auto. symmetry. destruct U as [before line after C N|before k s after N|before l after F N1 N2|before k id1 s1 between id2 s2 after H1 H2 H3 H4 H5 H6 H7].
  - apply loop_bad. intros. rewrite counts_loop by auto. cbn [first_command]. unfold try_command. rewrite !N. reflexivity.
  - apply loop_bad. intros. change #" <" with (#" " ++ #"<"). rewrite <- (app_assoc #" "). rewrite counts_loop by apply kw_counts. rewrite kw_first.
    unfold try_command. rewrite (app_assoc (kind_word k)). rewrite has_prefix_app. cbn [negb]. rewrite skipn_app_exact by reflexivity.
    assert (T : exists r, trim_space (#"<" ++ s) = "<"%char :: r /\ ~ In ">"%char r).
    { unfold trim_space. change (#"<" ++ s) with ("<"%char :: s). rewrite (drop_sp_id ("<"%char :: s)) by (intros a d E; injection E as <- _; vm_compute; intuition discriminate).
      cbn [rev]. assert (N' : ~ In ">"%char (rev s)) by (intros I; apply in_rev in I; auto). revert N'. generalize (rev s). clear. intros y. induction y as [|d y IH]; intros N; cbn [app drop_sp].
      - replace (is_sp "<"%char) with false by reflexivity. exists []. split; [reflexivity|intros []].
      - destruct (is_sp d); [apply IH; intros I; apply N; now right|]. exists (rev (d :: y)). split.
        + cbn [rev]. rewrite rev_app_distr. reflexivity.
        + intros I. apply in_rev in I. rewrite rev_involutive in I || idtac. auto. }
    destruct T as (r & T & Nr). rewrite T. cbv iota beta. rewrite eqc_refl. rewrite (proj2 (index_none_iff r #">")); auto.
    intros O. apply occurs_in in O. auto.
  - induction before as [|b before IH].
    + cbn [app parse_loop]. change (" "%char :: l) with (#" " ++ l). change (#" " ++ l) with (" "%char :: l). rewrite trim_cons by (vm_compute; auto).
      destruct (trim_space l) as [|t0 t]; [congruence|]. apply eqs_false in N2. rewrite N2. reflexivity.
    + inversion F as [|? ? Hb F0]; subst. cbn [app parse_loop]. destruct Hb as [-> | ->]; [exact (IH F0)|].
      replace (eqs #"..." #"...") with true by reflexivity. exact (IH F0).
  - assert (G : forall last c, parse_loop ((kind_word k ++ #" <" ++ id1 ++ #">" ++ s1) :: between ++ (kind_word k ++ #" <" ++ id2 ++ #">" ++ s2) :: after) last c = None).
    { intros last c. change #" <" with (#" " ++ #"<") at 1. rewrite <- (app_assoc #" ") at 1. rewrite counts_loop by apply kw_counts.
      change (kind_word k ++ #" " ++ #"<" ++ id1 ++ #">" ++ s1) with (kind_word k ++ #" <" ++ id1 ++ #">" ++ s1).
      rewrite first_self by auto. cbv zeta. destruct id1 as [|i0 i1]; [congruence|]. destruct (p_id (get_cmd k c)) as [|o0 o] eqn:P.
      - eapply (has_id_kept k (i0 :: i1)); eauto. now rewrite get_set.
      - destruct (eqs (o0 :: o) (i0 :: i1)) eqn:Q; auto. apply eqs_eq in Q. eapply (has_id_kept k (i0 :: i1)); eauto. now rewrite get_set. }
    revert G. generalize (kind_word k ++ #" <" ++ id1 ++ #">" ++ s1). intros first G. clear -G.
    assert (X : forall last c, parse_loop (before ++ first :: between ++ (kind_word k ++ #" <" ++ id2 ++ #">" ++ s2) :: after) last c = None).
    { induction before as [|x before IH]; intros last c; [apply G|]. cbn [app parse_loop].
      destruct (trim_space x); auto. destruct (eqs _ _); auto. destruct (has_prefix x #" ").
      - destruct last; auto.
      - destruct (first_command x _) as [[[[q id] content]|]|]; auto. destruct id; auto. destruct (p_id _); auto. destruct (eqs _ _); auto. }
    apply X.
Qed.
Print Assumptions C55_unreadable.
Example C55_unreadable_example :
  unreadable [#"append <a> x()"; #"delete <a> y()"] /\ unreadable [#"replace <a x()"] /\ unreadable [#"..."; #" x()"] /\
  unreadable [#"append <a> x()"; #"append <b> y()"].
Proof.
  split; [|split; [|split]].
  - apply (URunknown [#"append <a> x()"] #"delete <a> y()" []); [|intros []; reflexivity].
    unfold counts. split; [vm_compute; discriminate|]. split; [vm_compute; discriminate|reflexivity].
  - apply (URopen [] KReplace #"a x()" []). vm_compute. intuition discriminate.
  - apply (URfloating [#"..."] #"x()" []); [repeat constructor; right; reflexivity|vm_compute; discriminate|vm_compute; discriminate].
  - apply (URids [] KAppend #"a" #" x()" [] #"b" #" y()" []); try discriminate; try (vm_compute; intuition discriminate);
      intros a c E; [apply (app_inj_tail #" x(" a ")"%char c) in E as [_ <-]|apply (app_inj_tail #" y(" a ")"%char c) in E as [_ <-]]; vm_compute; intuition discriminate.
Qed.
