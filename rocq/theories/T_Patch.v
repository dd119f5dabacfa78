(** * C31, C32: marked patches can be taken out again and applied again. *)
From Coq Require Import Ascii String List Arith Bool Lia.
From Verif Require Import M_Str M_Patch P_Str P_Patch.
Import ListNotations.
Open Scope nat_scope.

(** ** C31: cleaning gives the original text back *)
(** Vocabulary: [occurs w s] (P_Str): s = a ++ w ++ b for some a, b; [begin_mark L] and
    [end_mark L] (P_Patch): the comments /*<begin L>*/ and /*<end L>*/. *)
(** A text with no marks of its own. *)
Definition markless (s : bytes) : Prop :=
  ~ occurs #"<begin" s /\ ~ occurs #"<end" s /\ ~ occurs #"<next-line-original " s.
(** The place from [off] on, [len] bytes long, is not inside a marked region. *)
Definition outside (content : bytes) (off len : nat) : Prop :=
  forall pre label mid post, content = pre ++ begin_mark label ++ mid ++ end_mark label ++ post -> ~ occurs #"/*<end" mid ->
  off + len <= length pre \/ length content - length post <= off.
(** [patched o c]: c is what any number of marked updates make of the text o: each with a
    label that is not yet in the text and an anchor outside the regions marked so far; an
    anchor to be replaced holds no comment end. *)
Inductive patched (o : bytes) : bytes -> Prop :=
| p_start : patched o o
| p_step c label seq i pos t c' :
    patched o c ->
    label_ok label -> ~ occurs (begin_mark label) c ->
    markless t -> ~ occurs #"/*old:" t ->
    (pos = Replace -> ~ occurs #"*/" (nth i seq [])) ->
    update_content c (begin_mark label) (end_mark label) seq i pos t = Some c' ->
    (forall off alen e, sequence_offset c seq i (match pos with After => false | _ => true end) = Some (Some (off, alen, e)) ->
       outside c off (match pos with Replace => alen | _ => 0 end)) ->
    patched o c'.

Lemma some_inj {A} (a b : A) : Some a = Some b -> a = b.
Proof. congruence. Qed.
Lemma index_sequence_after seq s i anchor begin cur rec off alen e :
  anchor < i -> index_sequence s seq i anchor begin cur rec = Some (off, alen, e) -> (off, alen) = rec.
Proof.
  revert s i cur rec. induction seq as [|w seq IH]; intros s i cur rec L H; simpl in H.
  - injection H as <- <- _. now destruct rec.
  - destruct (index s w) as [n|]; [|discriminate]. destruct (Nat.eqb_spec i anchor) as [E|E]; [lia|]. now apply IH in H; [|lia].
Qed.
Lemma index_sequence_at seq s i anchor begin cur rec off alen e :
  i <= anchor < i + length seq -> index_sequence s seq i anchor begin cur rec = Some (off, alen, e) ->
  exists a b, s = a ++ nth (anchor - i) seq [] ++ b /\ alen = length (nth (anchor - i) seq []) /\
    off = cur + length a + (if begin then 0 else alen).
Proof.
  revert s i cur rec. induction seq as [|w seq IH]; intros s i cur rec L H; [simpl in L; lia|]. cbn [index_sequence] in H.
  destruct (index s w) as [n|] eqn:I; [|discriminate]. apply index_sound in I as (a & b & -> & <-).
  destruct (Nat.eqb_spec i anchor) as [E|E].
  - subst i. apply index_sequence_after in H; [|lia]. injection H as -> ->. rewrite Nat.sub_diag. cbn [nth].
    exists a, b. split; auto. split; auto. destruct begin; lia.
  - apply IH in H; [|simpl in L; lia]. destruct H as (a' & b' & E1 & -> & ->).
    replace (anchor - i) with (S (anchor - S i)) by lia. cbn [nth].
    rewrite app_assoc, (skipn_app_exact (a ++ w)) in E1 by (rewrite app_length; lia). subst b.
    exists (a ++ w ++ a'), b'. rewrite <- !app_assoc. split; auto. split; auto. rewrite !app_length. lia.
Qed.
Lemma sequence_offset_spec s seq i begin off alen e :
  sequence_offset s seq i begin = Some (Some (off, alen, e)) ->
  exists a b, s = a ++ nth i seq [] ++ b /\ alen = length (nth i seq []) /\ off = length a + (if begin then 0 else alen).
Proof.
  unfold sequence_offset. destruct seq as [|w seq]; [discriminate|]. destruct (Nat.leb_spec (length (w :: seq)) i) as [H|H]; [discriminate|].
  intros E. assert (E' : index_sequence s (w :: seq) 0 i begin 0 (0, 0) = Some (off, alen, e)) by congruence.
  apply index_sequence_at in E'; [|lia]. rewrite Nat.sub_0_r in E'. exact E'.
Qed.

Lemma locate l : forall r pre off len, Forall (fun p => blk_ok (fst p)) l ->
  length pre <= off -> off + len <= length (pre ++ render (r, l)) -> outside (pre ++ render (r, l)) off len ->
  exists x m y, pre ++ render (r, l) = x ++ m ++ y /\ length x = off /\ length m = len /\ occurs m (origin (r, l)) /\
    forall b, k_old b = m -> exists r' l', pre ++ render (r', l') = x ++ render_blk b ++ y /\ origin (r', l') = origin (r, l) /\
      forall P : blk -> Prop, P b -> Forall (fun p => P (fst p)) l -> Forall (fun p => P (fst p)) l'.
Proof.
  induction l as [|[b0 r0] l IH]; intros r pre off len F L1 L2 O.
  - unfold render, origin, render_list, origin_list in *. cbn [fst snd map concat] in *. rewrite app_nil_r in *. rewrite app_length in L2.
    set (k := off - length pre).
    assert (E : r = firstn k r ++ firstn len (skipn k r) ++ skipn (k + len) r).
    { rewrite <- (firstn_skipn k r) at 1. f_equal. rewrite <- (firstn_skipn len (skipn k r)) at 1. f_equal.
      clear. revert r. induction k as [|k IH]; intros r; [reflexivity|]. destruct r; simpl; [now rewrite skipn_nil|apply IH]. }
    exists (pre ++ firstn k r), (firstn len (skipn k r)), (skipn (k + len) r). split; [|split; [|split; [|split]]].
    + rewrite <- app_assoc. f_equal. exact E.
    + rewrite app_length, firstn_length. lia.
    + rewrite firstn_length, skipn_length. lia.
    + exists (firstn k r), (skipn (k + len) r). exact E.
    + intros b Hb. exists (firstn k r), [(b, skipn (k + len) r)]. cbn [fst snd map concat]. rewrite !app_nil_r. split; [|split].
      * now rewrite <- !app_assoc.
      * rewrite Hb. now symmetry.
      * intros P Pb _. constructor; auto.
  - inversion F as [|q l' Hb F' E]; subst. cbn [fst] in Hb. rewrite render_cons in *.
    destruct (le_lt_dec (off + len) (length (pre ++ r))) as [C|C].
    + (* in the first piece *)
      set (k := off - length pre).
      assert (E : r = firstn k r ++ firstn len (skipn k r) ++ skipn (k + len) r).
      { rewrite <- (firstn_skipn k r) at 1. f_equal. rewrite <- (firstn_skipn len (skipn k r)) at 1. f_equal.
        clear. revert r. induction k as [|k IH]; intros r; [reflexivity|]. destruct r; simpl; [now rewrite skipn_nil|apply IH]. }
      rewrite app_length in C.
      exists (pre ++ firstn k r), (firstn len (skipn k r)), (skipn (k + len) r ++ render_blk b0 ++ render (r0, l)). split; [|split; [|split; [|split]]].
      * rewrite E at 1. now rewrite <- !app_assoc.
      * rewrite app_length, firstn_length. lia.
      * rewrite firstn_length, skipn_length. lia.
      * rewrite origin_cons. apply occurs_app_l. exists (firstn k r), (skipn (k + len) r). exact E.
      * intros b Eb. exists (firstn k r), ((b, skipn (k + len) r) :: (b0, r0) :: l). rewrite !render_cons, !origin_cons. split; [|split].
        -- now rewrite <- !app_assoc.
        -- rewrite Eb. rewrite E at 4. now rewrite <- !app_assoc.
        -- intros P Pb Fl. constructor; auto.
    + assert (C2 : length (pre ++ r ++ render_blk b0) <= off).
      { destruct Hb as (Lb & Nb & _). destruct (O (pre ++ r) (k_label b0) (k_between b0) (render (r0, l))) as [X|X]; auto.
        - unfold render_blk. now rewrite <- !app_assoc.
        - lia.
        - repeat rewrite app_length in X. repeat rewrite app_length. lia. }
      replace (pre ++ r ++ render_blk b0 ++ render (r0, l)) with ((pre ++ r ++ render_blk b0) ++ render (r0, l)) in * by (now rewrite <- !app_assoc).
      destruct (IH r0 (pre ++ r ++ render_blk b0) off len F' C2 L2 O) as (x & m & y & E & Lx & Lm & Om & K).
      exists x, m, y. split; auto. split; auto. split; auto. split.
      * rewrite origin_cons. do 2 apply occurs_app_r. exact Om.
      * intros b Eb. destruct (K b Eb) as (r' & l' & E1 & E2 & E3). exists r, ((b0, r') :: l'). rewrite render_cons, !origin_cons, E2. split; [|split].
        -- rewrite <- E1. now rewrite <- !app_assoc.
        -- reflexivity.
        -- intros P Pb Fl. inversion Fl; subst. constructor; auto.
Qed.

Definition blk_fine (b : blk) : Prop := blk_ok b /\ ~ occurs #"<next-line-original " (k_between b).
Lemma extract_old_none t : ~ occurs #"/*old:" t -> extract_old t = [].
Proof. intros N. unfold extract_old. now rewrite (proj2 (index_none_iff _ _) N). Qed.
Lemma extract_old_some m t : ~ occurs #"*/" m -> extract_old (#"/*old:" ++ m ++ #"*/" ++ t) = m.
Proof.
  intros N. unfold extract_old. rewrite index_here. change (0 + 6) with (length #"/*old:"). rewrite skipn_app_exact by reflexivity.
  rewrite index_unbordered; auto.
  - apply slice_app; reflexivity.
  - apply unbordered_first. simpl. intuition discriminate.
Qed.
(** What is in an original or inserted text is in none of the pieces of an update. *)
Lemma old_comment_free (w : bytes) m t : w <> [] -> ~ In "/"%char w -> ~ In ":"%char w -> (~ occurs w #"*old") -> (~ occurs w #"*") ->
  ~ In "*"%char w -> ~ occurs w m -> ~ occurs w t -> ~ occurs w (#"/*old:" ++ m ++ #"*/" ++ t).
Proof.
  intros NE N1 N2 H1 H2 N3 Hm Ht.
  change (#"/*old:" ++ m ++ #"*/" ++ t) with ([] ++ "/"%char :: (#"*old" ++ ":"%char :: (m ++ "*"%char :: ([] ++ "/"%char :: t)))).
  apply not_barrier; auto; [apply occurs_nil_left; auto|]. apply not_barrier; auto. apply not_barrier; auto. apply not_barrier; auto. apply occurs_nil_left; auto.
Qed.
Lemma end_word_free s : ~ occurs #"<end" s -> ~ occurs #"/*<end" s.
Proof. intros N O. apply N. change #"/*<end" with (#"/*" ++ #"<end") in O. now apply occurs_suffix in O. Qed.

Lemma patched_doc o c : markless o -> patched o c ->
  exists d, render d = c /\ origin d = o /\ Forall (fun p => blk_fine (fst p)) (snd d).
Proof.
  intros (M1 & M2 & M3) H. induction H as [|c label seq i pos t c' H IH Lab New (T1 & T2 & T3) T4 RP U Out].
  - exists (o, []). unfold render, origin. simpl. rewrite !app_nil_r. auto.
  - destruct IH as ([r l] & <- & Eo & F). cbn [snd] in F.
    assert (NI : index (render (r, l)) (begin_mark label) = None) by now apply index_none_iff.
    assert (TR : try_replace (render (r, l)) (begin_mark label) (end_mark label) t = TNo).
    { unfold try_replace. rewrite NI. reflexivity. }
    set (isr := match pos with Replace => true | _ => false end).
    assert (G : exists off alen e, sequence_offset (render (r, l)) seq i (match pos with After => false | _ => true end) = Some (Some (off, alen, e)) /\
                 insert_or_replace (render (r, l)) isr alen (begin_mark label) (end_mark label) off t = Some c').
    { unfold update_content in U. destruct pos; cbn iota in U; rewrite ?TR in U;
      (destruct (sequence_offset (render (r, l)) seq i _) as [[[[off alen] e]|]|]; [|discriminate|discriminate];
       destruct (sequence_offset (skipn e (render (r, l))) seq i false) as [[|]|]; [discriminate| |discriminate];
       exists off, alen, e; split; auto). }
    clear U. destruct G as (off & alen & e & SO & U). specialize (Out off alen e SO).
    apply sequence_offset_spec in SO as (a & b & Ec & -> & Eoff). unfold bytes in *.
    unfold insert_or_replace in U. destruct t as [|t0 t]; [injection U as <-; now exists (r, l)|]. rewrite TR in U. set (tt := t0 :: t) in *. clearbody tt. clear t0 t.
    set (len := match pos with Replace => length (nth i seq []) | _ => 0 end) in *.
    assert (Lc : off + len <= length ([] ++ render (r, l))).
    { cbn [app]. rewrite Ec. repeat rewrite app_length. unfold len. clear -Eoff. destruct pos; lia. }
    destruct (locate l r [] off len) as (x & m & y & E & Lx & Lm & Om & K); auto; [|simpl; lia|].
    { eapply Forall_impl; [|exact F]. intros q [Q _]. exact Q. }
    simpl in E. unfold bytes in *. rewrite E in U. rewrite Eo in Om.
    assert (Old : pos = Replace -> m = nth i seq []).
    { intros ->. unfold len in Lm. rewrite Ec in E. destruct (app_cut a (nth i seq [] ++ b) x (m ++ y) E ltac:(lia)) as (z & -> & E2).
      rewrite app_length in Lx. destruct z; [|simpl in Lx; lia]. simpl in E2. symmetry. 
      destruct (app_cut (nth i seq []) b m y E2 ltac:(lia)) as (z & -> & _). destruct z; [now rewrite app_nil_r|rewrite app_length in Lm; simpl in Lm; lia]. }
    assert (Fine : forall b, blk_fine b -> k_label b = label -> k_old b = m -> c' = x ++ render_blk b ++ y ->
              exists d, render d = c' /\ origin d = o /\ Forall (fun p => blk_fine (fst p)) (snd d)).
    { intros bb Hb _ Hm ->. destruct (K bb Hm) as (r' & l' & E1 & E2 & E3). exists (r', l'). simpl in E1. split; auto. split; [congruence|]. now apply E3. }
    destruct (isr) eqn:Ei.
    + assert (pos = Replace) by (unfold isr in Ei; destruct pos; congruence). specialize (Old H0). specialize (RP H0).
      assert (Ll : len = length (nth i seq [])) by (unfold len; now rewrite H0). rewrite <- Ll in U.
      rewrite slice_app in U by lia. rewrite firstn_app_exact in U by auto.
      replace (skipn (off + len) (x ++ m ++ y)) with y in U.
      2:{ rewrite app_assoc. rewrite skipn_app_exact; auto. rewrite app_length. lia. }
      rewrite <- Old in RP.
      apply (Fine {| k_label := label; k_old := m; k_between := #"/*old:" ++ m ++ #"*/" ++ tt |}); auto.
      * split; [split; [exact Lab|split]|]; cbn [k_between k_old].
        -- apply end_word_free. apply old_comment_free; auto; try discriminate; try (simpl; intuition discriminate);
             [intros O; apply occurs_in in O; simpl in O; intuition discriminate|intros O; apply occurs_in in O; simpl in O; intuition discriminate|].
           intros O. apply M2. now apply (occurs_trans _ m).
        -- now apply extract_old_some.
        -- apply old_comment_free; auto; try discriminate; try (simpl; intuition discriminate);
             [intros O; apply occurs_in in O; simpl in O; intuition discriminate|intros O; apply occurs_in in O; simpl in O; intuition discriminate|].
           intros O. apply M3. now apply (occurs_trans _ m).
      * apply some_inj in U. subst c'. unfold render_blk. cbn [k_label k_between]. now rewrite <- !app_assoc.
    + assert (L0 : len = 0) by (unfold len, isr in *; destruct pos; congruence). rewrite L0 in Lm. destruct m; [|discriminate].
      cbn [app] in E, U. destruct (contains (x ++ y) (begin_mark label ++ tt ++ end_mark label)).
      * injection U as <-. exists (r, l). auto.
      * apply some_inj in U. rewrite firstn_app_exact, skipn_app_exact in U by auto. subst c'.
        apply (Fine {| k_label := label; k_old := []; k_between := tt |}); auto.
        -- split; [split; [exact Lab|split]|]; cbn [k_between k_old]; auto using end_word_free, extract_old_none.
Qed.

(** Whatever marked updates were made to a text, cleaning gives the text back. *)
Theorem C31_clean_restores :
  forall o c, markless o -> patched o c -> clean_patch c = Some o.
Proof.
  intros o c M P. destruct (patched_doc o c M P) as (d & <- & Eo & F). destruct M as (M1 & M2 & M3). rewrite clean_doc, Eo; auto; rewrite ?Eo; auto.
  - intros O. apply M1. change #"/*<begin" with (#"/*" ++ #"<begin") in O. now apply occurs_suffix in O.
Qed.
Print Assumptions C31_clean_restores.

(** A concrete history: an insertion, then a replacement before it. *)
Lemma outside_before content off len n : index content #"/*<begin" = Some n -> off + len <= n -> outside content off len.
Proof.
  intros I L pre label mid post E _. left. unfold begin_mark in E. change #"/*<begin " with (#"/*<begin" ++ #" ") in E. rewrite <- !app_assoc in E.
  pose proof (index_first _ _ _ I _ _ E). lia.
Qed.
Lemma outside_none content off len : index content #"/*<begin" = None -> outside content off len.
Proof.
  intros I pre label mid post E _. exfalso. apply (index_none _ _ I pre (#" " ++ label ++ #">*/" ++ mid ++ end_mark label ++ post)).
  rewrite E. unfold begin_mark. rewrite <- !app_assoc. reflexivity.
Qed.
Lemma not_occurs_compute w s : index s w = None -> ~ occurs w s.
Proof. apply index_none_iff. Qed.
Definition ex_src : bytes := #"func f() { a() }".
Definition ex_1 : bytes := #"func f() { a()/*<begin x1>*/; b()/*<end x1>*/ }".
Definition ex_2 : bytes := #"func /*<begin y>*//*old:f()*/g(n int)/*<end y>*/ { a()/*<begin x1>*/; b()/*<end x1>*/ }".
Example C31_example : markless ex_src /\ patched ex_src ex_2 /\ clean_patch ex_2 = Some ex_src.
Proof.
  assert (M : markless ex_src) by (unfold markless; repeat split; apply not_occurs_compute; reflexivity).
  assert (P : patched ex_src ex_2).
  { apply (p_step ex_src ex_1 #"y" [#"func "; #"f()"] 1 Replace #"g(n int)").
    - apply (p_step ex_src ex_src #"x1" [#"f()"; #"a()"] 1 After #"; b()").
      + constructor.
      + repeat constructor; simpl; intuition discriminate.
      + apply not_occurs_compute. reflexivity.
      + unfold markless; repeat split; apply not_occurs_compute; reflexivity.
      + apply not_occurs_compute. reflexivity.
      + discriminate.
      + vm_compute. reflexivity.
      + intros off alen e _. apply outside_none. reflexivity.
    - repeat constructor; simpl; intuition discriminate.
    - apply not_occurs_compute. reflexivity.
    - unfold markless; repeat split; apply not_occurs_compute; reflexivity.
    - apply not_occurs_compute. reflexivity.
    - intros _. apply not_occurs_compute. reflexivity.
    - vm_compute. reflexivity.
    - intros off alen e E. vm_compute in E. injection E as <- <- <-. apply (outside_before _ _ _ 14); [reflexivity|lia]. }
  split; [exact M|]. split; [exact P|]. now apply C31_clean_restores.
Qed.

(** Without the conditions the original is not restored: (1) a replacement made twice under
    the same mark forgets the original; (2) a replaced text that holds a comment is cut at its
    end; (3) an inserted text that holds an "old" comment adds to the original. *)
Theorem C31_clean_refuted :
  (let o := #"x := f(1)" in
   exists c1 c2, update_content o (begin_mark #"L") (end_mark #"L") [#"f"] 0 Replace #"g" = Some c1 /\
   update_content c1 (begin_mark #"L") (end_mark #"L") [#"f"] 0 Replace #"h" = Some c2 /\ clean_patch c2 = Some #"x := (1)") /\
  (let o := #"x := f(/*n*/1)" in
   exists c1, update_content o (begin_mark #"L") (end_mark #"L") [#"f(/*n*/1)"] 0 Replace #"g()" = Some c1 /\ clean_patch c1 = Some #"x := f(/*n") /\
  (let o := #"x := f(1)" in
   exists c1, update_content o (begin_mark #"L") (end_mark #"L") [#"(1)"] 0 After #"/*old:y*/" = Some c1 /\ clean_patch c1 = Some #"x := f(1)y").
Proof.
  split; [|split].
  - do 2 eexists. split; [vm_compute; reflexivity|]. split; [vm_compute; reflexivity|]. vm_compute. reflexivity.
  - eexists. split; vm_compute; reflexivity.
  - eexists. split; vm_compute; reflexivity.
Qed.
Print Assumptions C31_clean_refuted.

(** ** Files edited through marks *)
(** C32: editing the file a second time changes nothing. *)
Theorem C32_edit_file :
  forall cb file o c r, clean_patch file = Some o -> markless o -> cb o = Some c -> patched o c ->
  edit_file cb file = Some r -> edit_file cb r = Some r.
Proof.
  intros cb file o c r Cf M Ec P. unfold edit_file at 1. rewrite Cf, Ec. destruct (eqs c o) eqn:E; intros H; apply some_inj in H; subst r.
  - unfold edit_file. now rewrite Cf, Ec, E.
  - unfold edit_file. rewrite (C31_clean_restores o c M P), Ec, E. reflexivity.
Qed.
Print Assumptions C32_edit_file.
(** C45: the edited file is what the edit makes of the original, whatever the file carried
    before, provided the edit changes the original. *)
Theorem C45_edit_partial :
  forall cb file o c, clean_patch file = Some o -> cb o = Some c -> c <> o -> edit_file cb file = Some c.
Proof. intros cb file o c Cf Ec N. unfold edit_file. rewrite Cf, Ec. now apply eqs_false in N as ->. Qed.
Print Assumptions C45_edit_partial.
(** An edit that leaves the original as it is does not remove an earlier patch. *)
Theorem C45_edit_refuted :
  exists cb file o, clean_patch file = Some o /\ patched o file /\ cb o = Some o /\ edit_file cb file = Some file /\ file <> o.
Proof.
  exists (fun c => Some c), ex_2, ex_src. destruct C31_example as (_ & P & C).
  split; [exact C|]. split; [exact P|]. split; [reflexivity|]. split; [vm_compute; reflexivity|]. vm_compute. discriminate.
Qed.
Print Assumptions C45_edit_refuted.
