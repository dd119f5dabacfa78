(** * C31, C45, C46: copied functions, replaced directives, errors, marks that are already there.
    Model: M_Patch. *)
From Coq Require Import Ascii String List Arith Bool Lia.
From Verif Require Import M_Str M_Patch P_Str P_Patch P_Patch2 P_Patch3 S_Patch T_Patch T_Patch2.
Import ListNotations.
Open Scope nat_scope.

(** The first occurrence of [w]: [s = a ++ w ++ b] with [a] as short as possible. *)
Definition first_at (s a w b : bytes) : Prop := s = a ++ w ++ b /\ forall a' b', s = a' ++ w ++ b' -> length a <= length a'.
Lemma first_index s a w b : first_at s a w b -> index s w = Some (length a).
Proof. intros (E & M). now apply index_least with (b := b). Qed.
Lemma first_skip s a w b : first_at s a w b -> skipn (length a + length w) s = b /\ firstn (length a) s = a.
Proof.
  intros (-> & _). split; [|now apply firstn_app_exact]. rewrite app_assoc. apply skipn_app_exact. now rewrite app_length.
Qed.

(** ** C46: copying a function *)
(** [body] is [text] without a final line break. *)
Definition unterminated (text body : bytes) : Prop :=
  text = body ++ [newline] \/ (body = text /\ forall t, text <> t ++ [newline]).
Lemma trim_spec text : unterminated text (trim_newline text).
Proof.
  unfold trim_newline, unterminated. destruct (has_suffix text [newline]) eqn:S.
  - left. apply has_suffix_iff in S as (p & ->). rewrite app_length. simpl. replace (length p + 1 - 1) with (length p) by lia. now rewrite firstn_app_exact.
  - right. split; auto. intros t ->. rewrite (proj2 (has_suffix_iff _ [newline]) (ex_intro _ t eq_refl)) in S. discriminate.
Qed.
Lemma unterminated_unique text b1 b2 : unterminated text b1 -> unterminated text b2 -> b1 = b2.
Proof. intros [E1|(E1 & N1)] [E2|(E2 & N2)]; subst; auto; try (now apply app_inj_tail in E2); exfalso; [now apply (N2 b1)|now apply (N1 b2)]. Qed.

(** The copy stands at the end of the file, on a new line, marked, under its new name, without
    its final line break; the rest of the file is unchanged. *)
Theorem C46_copy :
  forall A n src source target fs fe pre post body,
    a_parses A src = true ->
    a_func A src source = Some (fs, fe) ->
    first_at (slice src fs fe) pre (#"func " ++ source ++ #"(") post ->
    unterminated (pre ++ #"func " ++ target ++ #"(" ++ post) body ->
    exists sep, apply_patch A src {| b_name := n; b_commands := [CopyFunc source target] |} =
      Some (src ++ sep ++ begin_mark n ++ body ++ end_mark n) /\
      ((sep = [] /\ exists t, src = t ++ [newline]) \/ (sep = [newline] /\ forall t, src <> t ++ [newline])).
Proof.
  intros A n src source target fs fe pre post body Pa Fu Fi Un. unfold apply_patch. rewrite Pa. cbn [b_commands b_name exec_all exec].
  unfold eval_copy. rewrite Fu. cbn [option_map]. unfold replace1. rewrite (first_index _ _ _ _ Fi). destruct (first_skip _ _ _ _ Fi) as (-> & ->).
  rewrite <- !app_assoc.
  rewrite (unterminated_unique _ _ _ (trim_spec _) Un).
  assert (Nb : body <> []).
  { intros ->. destruct Un as [E|(E & _)].
    - apply (f_equal (@length _)) in E. rewrite !app_length in E. simpl in E. lia.
    - apply (f_equal (@length _)) in E. rewrite !app_length in E. simpl in E. lia. }
  unfold apply_edits. cbn [s_directive s_append set_append s_after s_seq s_groups init_state apply_groups apply_directive].
  unfold apply_append. destruct body as [|c0 body]; [congruence|]. set (bb := c0 :: body). clearbody bb.
  destruct (has_suffix src [newline]) eqn:S.
  - exists []. split; [f_equal; unfold begin_mark, end_mark; rewrite <- !app_assoc; reflexivity|].
    left. split; auto. now apply has_suffix_iff in S.
  - exists [newline]. split; [f_equal; unfold begin_mark, end_mark; rewrite <- !app_assoc; reflexivity|].
    right. split; auto. intros t ->. rewrite (proj2 (has_suffix_iff _ [newline]) (ex_intro _ t eq_refl)) in S. discriminate.
Qed.
Print Assumptions C46_copy.

(** ** C46: replacing a directive *)
Definition annotation (n old : bytes) : bytes := #"/*<next-line-original " ++ n ++ #">" ++ old ++ #"</next-line-original>*/".
(** The first occurrence of the directive becomes a comment, and its replacement stands on the
    next line; without an occurrence nothing changes. *)
Theorem C46_directive :
  forall A n src old new, a_parses A src = true -> old <> [] -> new <> [] ->
  let r := apply_patch A src {| b_name := n; b_commands := [ReplaceDirective old new] |} in
  (forall a b, first_at src a old b -> r = Some (a ++ annotation n old ++ [newline] ++ new ++ b)) /\
  (~ occurs old src -> r = Some src).
Proof.
  intros A n src old new Pa No Nn r. unfold r, apply_patch. rewrite Pa. cbn [b_commands b_name exec_all exec].
  destruct old as [|o0 old]; [congruence|]. destruct new as [|n0 new]; [congruence|]. set (oo := o0 :: old). set (nn := n0 :: new). clearbody oo nn.
  unfold apply_edits. cbn [s_directive s_append set_directive s_after s_seq s_groups init_state apply_groups apply_append].
  unfold apply_directive. split.
  - intros a b Fi. rewrite (first_index _ _ _ _ Fi). destruct (first_skip _ _ _ _ Fi) as (-> & ->).
    unfold annotation, annot_begin, annot_close. now rewrite <- !app_assoc.
  - intros N. now rewrite (proj2 (index_none_iff _ _) N).
Qed.
Print Assumptions C46_directive.

(** ** C46: what cannot be done is an error, and nothing is written *)
(** Commands that cannot be carried out on [src], whatever was done before. *)
Inductive impossible (A : ast) (src : bytes) : command -> Prop :=
| ImpBefore : impossible A src (InsertBefore [])
| ImpAfter : impossible A src (InsertAfter [])
| ImpLine : impossible A src (InsertAfterLine [])
| ImpWith : impossible A src (ReplaceWith [])
| ImpMatch w : ~ occurs w src -> impossible A src (Match w)
| ImpFind w : ~ occurs w src -> impossible A src (FindForReplace w)
| ImpGoto t : (forall cur, a_goto A src cur t = None) -> impossible A src (Goto t)
| ImpCopy s t : a_func A src s = None -> impossible A src (CopyFunc s t)
| ImpDirective o t : o = [] \/ t = [] -> impossible A src (ReplaceDirective o t).
Lemma impossible_exec A src s c : impossible A src c -> exec A src s c = None.
Proof.
  intros H. destruct H; cbn [exec]; auto.
  - unfold eval_match. destruct (match a_node A src _ with Some r => r | None => _ end) as (ss, se). cbn [andb].
    rewrite (proj2 (index_none_iff _ _)); auto. intros O. apply H. eapply occurs_trans; [exact O|apply slice_occurs].
  - unfold eval_match. destruct (match a_node A src _ with Some r => r | None => _ end) as (ss, se).
    assert (N : forall i j, ~ occurs w (slice src i j)) by (intros i j O; apply H; eapply occurs_trans; [exact O|apply slice_occurs]).
    destruct (_ && _ && _).
    + destruct (last_index _ w) eqn:L.
      * apply last_index_sound in L as (a & b & E & _). exfalso. eapply N. exists a, b. exact E.
      * rewrite (proj2 (index_none_iff _ _)); auto.
    + rewrite (proj2 (index_none_iff _ _)); auto.
  - now rewrite H.
  - unfold eval_copy. now rewrite H.
  - destruct H as [-> | ->]; auto. destruct o; auto.
Qed.
Lemma exec_all_fails A src c cs1 cs2 : (forall s, exec A src s c = None) -> forall s, exec_all A src s (cs1 ++ c :: cs2) = None.
Proof.
  intros H. induction cs1 as [|d cs1 IH]; intros s; cbn [app exec_all]; [now rewrite H|]. destruct (exec A src s d); auto.
Qed.
Lemma no_find_replace A src cs : (forall w, ~ In (FindForReplace w) cs) -> forall s, c_replace (s_cursor s) = false ->
  forall s', exec_all A src s cs = Some s' -> c_replace (s_cursor s') = false.
Proof.
  intros N. induction cs as [|c cs IH]; intros s R s' E; cbn [exec_all] in E; [now injection E as <-|].
  destruct (exec A src s c) as [s1|] eqn:X; [|discriminate]. apply (IH (fun w I => N w (or_intror I)) s1); auto.
  destruct c; cbn [exec] in X.
  - destruct (a_goto A src _ target); cbn [option_map] in X; [|discriminate]. injection X as <-. reflexivity.
  - unfold eval_match in X. destruct (match a_node A src _ with Some r => r | None => _ end). cbn [andb] in X.
    destruct (index _ text); cbn [option_map] in X; [|discriminate]. injection X as <-. reflexivity.
  - exfalso. apply (N text). now left.
  - destruct text; [discriminate|]. injection X as <-. exact R.
  - destruct text; [discriminate|]. injection X as <-. exact R.
  - destruct text; [discriminate|]. injection X as <-. cbn [s_cursor with_group set_after set_cursor].
    destruct (nth_error src _) as [ch|]; [destruct (eqc ch newline)|]; exact R.
  - destruct text; [discriminate|]. rewrite R in X. discriminate.
  - injection X as <-. exact R.
  - destruct (eval_copy A src source target); cbn [option_map] in X; [|discriminate]. injection X as <-. exact R.
  - destruct old; [discriminate|]. destruct new; [discriminate|]. injection X as <-. exact R.
Qed.
Theorem C46_impossible :
  forall A src b,
    (exists c, In c (b_commands b) /\ impossible A src c) \/
    (exists cs1 t cs2, b_commands b = cs1 ++ ReplaceWith t :: cs2 /\ forall w, ~ In (FindForReplace w) cs1) ->
    apply_patch A src b = None.
Proof.
  intros A src b H. unfold apply_patch. destruct (a_parses A src); auto. destruct H as [(c & I & H)|(cs1 & t & cs2 & E & N)].
  - apply in_split in I as (cs1 & cs2 & ->). rewrite exec_all_fails; auto. intros s. now apply impossible_exec.
  - rewrite E. clear E. assert (X : exec_all A src init_state (cs1 ++ ReplaceWith t :: cs2) = None).
    { assert (Y : forall s, (forall s', exec_all A src s cs1 = Some s' -> c_replace (s_cursor s') = false) -> exec_all A src s (cs1 ++ ReplaceWith t :: cs2) = None).
      { clear N. induction cs1 as [|d cs1 IH]; intros s Y; cbn [app exec_all] in *.
        - cbn [exec]. rewrite (Y s eq_refl). now destruct t.
        - destruct (exec A src s d); auto. }
      apply Y. intros s'. now apply no_find_replace. }
    now rewrite X.
Qed.
Print Assumptions C46_impossible.

(** One block that cannot be applied, and the whole patch fails. *)
Theorem C46_all_or_nothing :
  forall A bs1 b bs2 source src,
    apply_blocks A source bs1 = Some src ->
    (b_name b = [] /\ apply_patch A src b = None \/
     b_name b <> [] /\ exists c, clear_patch src (b_name b) = Some c /\ apply_patch A c b = None) ->
    apply_blocks A source (bs1 ++ b :: bs2) = None.
Proof.
  intros A bs1 b bs2. induction bs1 as [|d bs1 IH]; intros source src E H; cbn [app apply_blocks] in *.
  - injection E as ->. destruct H as [(-> & H)|(N & c & C & H)].
    + now rewrite H.
    + destruct (b_name b); [congruence|]. now rewrite C, H.
  - destruct (match b_name d with [] => Some source | _ => clear_patch source (b_name d) end); [|discriminate].
    destruct (apply_patch A _ d); [|discriminate]. eauto.
Qed.
Print Assumptions C46_all_or_nothing.

(** ** Examples *)
Definition ex_go : bytes := #("package p" ++ nl ++ "//go:build a" ++ nl ++ "func f() { g() }" ++ nl)%string.
Definition ex_ast : ast := {| a_parses := fun _ => true; a_goto := fun _ _ _ => None; a_node := fun _ _ => None;
  a_func := fun _ name => if eqs name #"f" then Some (23, 39) else None |}.
Lemma first_compute s w n : index s w = Some n -> first_at s (firstn n s) w (skipn (n + length w) s).
Proof.
  intros I. pose proof I as J. apply index_sound in J as (a & b & E & La). split.
  - rewrite E, <- La. rewrite (firstn_app_exact a) by reflexivity. do 2 f_equal. rewrite app_assoc. symmetry. apply skipn_app_exact. now rewrite app_length.
  - intros a' b' E'. rewrite firstn_length. pose proof (index_first _ _ _ I _ _ E'). lia.
Qed.
Example C46_copy_example :
  first_at (slice ex_go 23 39) [] #"func f(" #") { g() }" /\
  apply_patch ex_ast ex_go {| b_name := #"b"; b_commands := [CopyFunc #"f" #"old_f"] |} =
  Some (ex_go ++ #"/*<begin b>*/func old_f() { g() }/*<end b>*/").
Proof. split; [|vm_compute; reflexivity]. apply (first_compute (slice ex_go 23 39) #"func f(" 0). reflexivity. Qed.
Example C46_directive_example :
  first_at ex_go #("package p" ++ nl)%string #"//go:build a" #(nl ++ "func f() { g() }" ++ nl)%string /\
  apply_patch ex_ast ex_go {| b_name := #"b"; b_commands := [ReplaceDirective #"//go:build a" #"//go:build b"] |} =
  Some #("package p" ++ nl ++ "/*<next-line-original b>//go:build a</next-line-original>*/" ++ nl ++ "//go:build b" ++ nl ++ "func f() { g() }" ++ nl)%string.
Proof. split; [|vm_compute; reflexivity]. apply (first_compute ex_go #"//go:build a" 10). reflexivity. Qed.
Example C46_impossible_example :
  impossible ex_ast ex_go (Match #"nowhere") /\
  apply_blocks ex_ast ex_go [{| b_name := #"a"; b_commands := [Match #"g()"; InsertAfter #"; h()"] |}] <> None /\
  apply_blocks ex_ast ex_go [{| b_name := #"a"; b_commands := [Match #"g()"; InsertAfter #"; h()"] |}; {| b_name := #"b"; b_commands := [Match #"nowhere"] |}] = None.
Proof.
  split; [|split; [vm_compute; discriminate|vm_compute; reflexivity]].
  constructor. apply not_occurs_compute. reflexivity.
Qed.

(** ** C31: cleaning restores replaced directives *)
(** A text with replaced directives: for each the text before it, the name, the old and the new
    directive; then the rest. *)
Record repl := { d_pre : bytes; d_name : bytes; d_old : bytes; d_new : bytes }.
Fixpoint shown (l : list repl) (rest : bytes) : bytes :=
  match l with [] => rest | d :: l => d_pre d ++ annotation (d_name d) (d_old d) ++ [newline] ++ d_new d ++ shown l rest end.
Fixpoint plain (l : list repl) (rest : bytes) : bytes :=
  match l with [] => rest | d :: l => d_pre d ++ d_old d ++ plain l rest end.
(** The old directive ends its line, the new one is one line. *)
Fixpoint whole_lines (l : list repl) (rest : bytes) : Prop :=
  match l with
  | [] => True
  | d :: l => ~ In ">"%char (d_name d) /\ ~ occurs #"</next-line-original>*/" (d_old d) /\ ~ In newline (d_new d) /\
      (shown l rest = [] \/ exists y, shown l rest = newline :: y) /\ whole_lines l rest
  end.
Lemma next_line p new y : ~ In newline new -> (y = [] \/ exists y', y = newline :: y') ->
  skipn (next_line_end (p ++ newline :: new ++ y) (length p)) (p ++ newline :: new ++ y) = y.
Proof.
  intros Nn Y. unfold next_line_end. assert (Sk1 : skipn (length p) (p ++ newline :: new ++ y) = newline :: new ++ y) by (now apply skipn_app_exact). rewrite Sk1.
  replace (index (newline :: new ++ y) [newline]) with (Some 0) by (symmetry; apply (index_here [newline] (new ++ y))).
  rewrite Nat.add_0_r.
  assert (Sk2 : forall k, skipn (length p + 1 + k) (p ++ newline :: new ++ y) = skipn k (new ++ y)).
  { intros k. change (newline :: new ++ y) with ([newline] ++ new ++ y). rewrite app_assoc. rewrite <- skipn_add.
    f_equal. apply skipn_app_exact. rewrite app_length. reflexivity. }
  pose proof (Sk2 0) as Sk0. rewrite Nat.add_0_r in Sk0. rewrite Sk0. cbn [skipn].
  destruct Y as [->|(y' & ->)].
  - rewrite app_nil_r. rewrite (proj2 (index_none_iff new [newline])).
    + rewrite skipn_all2; auto.
    + intros O. apply occurs_in in O. auto.
  - change (new ++ newline :: y') with (new ++ [newline] ++ y'). rewrite index_unbordered.
    + rewrite Sk2. now apply skipn_app_exact.
    + apply (unbordered_first newline []). intros [].
    + intros O. apply occurs_in in O. auto.
Qed.
Lemma clean_shown rest l : forall p fuel, whole_lines l rest -> ~ occurs annot_open (p ++ plain l rest) -> length l <= fuel ->
  clean_next_line fuel (p ++ shown l rest) = Some (p ++ plain l rest).
Proof.
  induction l as [|d l IH]; intros p fuel W N Lf; cbn [shown plain] in *.
  - now apply clean_no_annot.
  - destruct W as (W1 & W2 & W3 & W4 & W5). destruct fuel as [|fuel]; [simpl in Lf; lia|]. cbn [length] in Lf.
    cbn [clean_next_line].
    assert (Np : ~ occurs annot_open (p ++ d_pre d)) by (intros O; apply N; rewrite app_assoc; now apply occurs_app_l).
    set (q := p ++ d_pre d) in *. set (tail := [newline] ++ d_new d ++ shown l rest).
    assert (E0 : p ++ d_pre d ++ annotation (d_name d) (d_old d) ++ tail =
                 q ++ annot_open ++ d_name d ++ #">" ++ d_old d ++ annot_close ++ tail).
    { unfold q, annotation, annot_open, annot_close. now rewrite <- !app_assoc. }
    rewrite E0. clear E0. rewrite index_unbordered; auto; [|apply unbordered_first; simpl; intuition discriminate].
    set (q1 := q ++ annot_open).
    replace (q ++ annot_open ++ d_name d ++ #">" ++ d_old d ++ annot_close ++ tail) with (q1 ++ d_name d ++ #">" ++ d_old d ++ annot_close ++ tail) by (unfold q1; now rewrite <- app_assoc).
    replace (length q + length annot_open) with (length q1) by (unfold q1; now rewrite app_length).
    rewrite (skipn_app_exact q1) by reflexivity.
    rewrite index_unbordered; [|apply (unbordered_first ">"%char []); intros []|intros O; apply occurs_in in O; auto].
    set (q2 := q1 ++ d_name d ++ #">").
    replace (q1 ++ d_name d ++ #">" ++ d_old d ++ annot_close ++ tail) with (q2 ++ d_old d ++ annot_close ++ tail) by (unfold q2; now rewrite <- !app_assoc).
    replace (length (d_name d) + length q + length annot_open + 1) with (length q2).
    2:{ unfold q2, q1. rewrite !app_length. change (length #">") with 1. change (length annot_open) with 22. lia. }
    rewrite (skipn_app_exact q2) by reflexivity.
    rewrite index_unbordered; auto; [|apply unbordered_first; simpl; intuition discriminate].
    cbv zeta. rewrite slice_app; [|reflexivity|apply Nat.add_comm].
    replace (firstn (length q) (q2 ++ d_old d ++ annot_close ++ tail)) with q.
    2:{ unfold q2, q1. rewrite <- !app_assoc. symmetry. now apply firstn_app_exact. }
    set (q3 := q2 ++ d_old d ++ annot_close).
    replace (q2 ++ d_old d ++ annot_close ++ tail) with (q3 ++ tail) by (unfold q3; now rewrite <- !app_assoc).
    replace (length (d_old d) + length q2 + length annot_close) with (length q3) by (unfold q3; rewrite !app_length; lia).
    unfold tail. cbn [app]. rewrite next_line by auto.
    replace (q ++ d_old d ++ shown l rest) with ((q ++ d_old d) ++ shown l rest) by (now rewrite <- app_assoc).
    rewrite IH; auto; [unfold q; now rewrite <- !app_assoc| |lia].
    unfold q. rewrite <- !app_assoc. exact N.
Qed.
(** Whatever marked updates were made to a text, and whatever whole-line directives of the
    result were replaced: cleaning gives the text back. *)
Theorem C31_directives :
  forall o c l rest, markless o -> patched o c -> plain l rest = c -> whole_lines l rest ->
  clean_patch (shown l rest) = Some o.
Proof.
  intros o c l rest M P E W. pose proof (C31_clean_restores o c M P) as R.
  destruct (patched_doc o c M P) as (d & Ed & Eo & F). destruct M as (M1 & M2 & M3).
  assert (N : ~ occurs annot_open c).
  { rewrite <- Ed. change annot_open with (#"/*" ++ #"<next-line-original "). intros O. apply occurs_suffix in O. revert O. destruct d as [r0 l0]. apply render_free; auto using next_word_open.
    - eapply Forall_impl; [|exact F]. intros a ((L & _) & H). auto.
    - now rewrite Eo. }
  unfold clean_patch in *. rewrite <- E in *. clear E c.
  pose proof (clean_shown rest l [] (length (shown l rest)) W N) as H. cbn [app] in H. rewrite H.
  - rewrite clean_no_annot in R; auto.
  - clear. induction l as [|d l IH]; cbn [shown length]; [lia|]. rewrite !app_length. cbn [length]. lia.
Qed.
Print Assumptions C31_directives.
(** So a directive replaced by a patch block is restored. *)
Theorem C31_directive_block :
  forall A n src old new a b r, a_parses A src = true -> old <> [] -> new <> [] ->
  first_at src a old b -> (b = [] \/ exists b', b = newline :: b') ->
  markless src -> ~ In ">"%char n -> ~ occurs #"</next-line-original>*/" old -> ~ In newline new ->
  apply_patch A src {| b_name := n; b_commands := [ReplaceDirective old new] |} = Some r ->
  clean_patch r = Some src.
Proof.
  intros A n src old new a b r Pa No Nn Fi B M Ln Co Nl E.
  destruct (C46_directive A n src old new Pa No Nn) as (H & _). rewrite (H a b Fi) in E. apply some_inj in E. subst r.
  destruct Fi as (E & _).
  apply (C31_directives src src [{| d_pre := a; d_name := n; d_old := old; d_new := new |}] b M (p_start src)).
  - cbn [plain d_pre d_old]. auto.
  - cbn [whole_lines d_name d_old d_new shown]. tauto.
Qed.
Print Assumptions C31_directive_block.
Example C31_directive_example :
  clean_patch #("package p" ++ nl ++ "/*<next-line-original b>//go:build a</next-line-original>*/" ++ nl ++ "//go:build b" ++ nl ++ "func f() { g() }" ++ nl)%string = Some ex_go.
Proof.
  destruct C46_directive_example as (Fi & E).
  apply (C31_directive_block ex_ast #"b" ex_go #"//go:build a" #"//go:build b" _ _ _ eq_refl ltac:(discriminate) ltac:(discriminate) Fi).
  - right. now eexists.
  - unfold markless; repeat split; apply not_occurs_compute; reflexivity.
  - simpl. intuition discriminate.
  - apply not_occurs_compute. reflexivity.
  - simpl. intuition discriminate.
  - exact E.
Qed.

(** ** C45: marks that are already there *)
(** The original recorded between two marks. *)
Inductive recorded : bytes -> bytes -> Prop :=
| RecOld old t : ~ occurs #"*/" old -> recorded (#"/*old:" ++ old ++ #"*/" ++ t) old
| RecNone mid : ~ occurs #"/*old:" mid -> recorded mid [].
Lemma try_replace_eq c bm em t : bm <> [] -> em <> [] -> try_replace c bm em t =
  match index c bm with
  | None => TNo
  | Some b => match index c em with
    | None => TNo
    | Some e => if e <? b + length bm then TPanic
      else TYes (firstn b c ++ bm ++ (extract_old (slice c (b + length bm) e) ++ t) ++ em ++ skipn (e + length em) c)
    end
  end.
Proof. destruct bm, em; try congruence. reflexivity. Qed.
(** An update whose marks are in the text already gives the text between them the new content
    (after the recorded original), and changes nothing else. *)
Theorem C45_in_place :
  forall L a mid b old seq i pos t,
  let c := a ++ begin_mark L ++ mid ++ end_mark L ++ b in
  let r := update_content c (begin_mark L) (end_mark L) seq i pos t in
  first_at c a (begin_mark L) (mid ++ end_mark L ++ b) ->
  first_at c (a ++ begin_mark L ++ mid) (end_mark L) b ->
  recorded mid old ->
  pos = Replace \/ (t <> [] /\ r <> None) ->
  r = Some (a ++ begin_mark L ++ old ++ t ++ end_mark L ++ b).
Proof.
  intros L a mid b old seq i pos t c r Fb Fe Rec H.
  assert (T : try_replace c (begin_mark L) (end_mark L) t = TYes (a ++ begin_mark L ++ old ++ t ++ end_mark L ++ b)).
  { rewrite try_replace_eq by discriminate.
    rewrite (first_index _ _ _ _ Fb), (first_index _ _ _ _ Fe). rewrite !app_length.
    destruct (Nat.ltb_spec (length a + (length (begin_mark L) + length mid)) (length a + length (begin_mark L))) as [X|_]; [lia|].
    destruct (first_skip _ _ _ _ Fb) as (_ & ->). destruct (first_skip _ _ _ _ Fe) as (Sk & _). rewrite !app_length in Sk. rewrite Sk.
    replace (slice c (length a + length (begin_mark L)) (length a + (length (begin_mark L) + length mid))) with mid.
    2:{ unfold c. rewrite (app_assoc a). symmetry. apply slice_app; rewrite ?app_length; lia. }
    replace (extract_old mid) with old; [now rewrite <- !app_assoc|]. destruct Rec; [now rewrite extract_old_some|now rewrite extract_old_none]. }
  assert (Ins : forall rep alen off, t <> [] -> insert_or_replace c rep alen (begin_mark L) (end_mark L) off t = Some (a ++ begin_mark L ++ old ++ t ++ end_mark L ++ b)).
  { intros rep alen off Nt. unfold insert_or_replace. rewrite T. destruct t; [congruence|reflexivity]. }
  unfold r, update_content in *. destruct pos.
  - destruct H as [H|(Nt & H)]; [discriminate|]. destruct (sequence_offset c seq i false) as [[[[off al] e]|]|]; [|congruence|congruence].
    destruct (sequence_offset (skipn e c) seq i false) as [[|]|]; [congruence| |congruence]. now apply Ins.
  - destruct H as [H|(Nt & H)]; [discriminate|]. destruct (sequence_offset c seq i true) as [[[[off al] e]|]|]; [|congruence|congruence].
    destruct (sequence_offset (skipn e c) seq i false) as [[|]|]; [congruence| |congruence]. now apply Ins.
  - now rewrite T.
Qed.
Print Assumptions C45_in_place.
(** Marks in the wrong order or overlapping are refused. *)
Theorem C45_wrong_order :
  forall bm em c a b a' b' seq i t,
  bm <> [] -> em <> [] -> first_at c a bm b -> first_at c a' em b' -> length a' < length a + length bm ->
  update_content c bm em seq i Replace t = None.
Proof.
  intros bm em c a b a' b' seq i t Nb Ne Fb Fe Lt. unfold update_content, try_replace. destruct bm as [|b0 bm]; [congruence|]. destruct em as [|e0 em]; [congruence|].
  rewrite (first_index _ _ _ _ Fb), (first_index _ _ _ _ Fe). apply Nat.ltb_lt in Lt. now rewrite Lt.
Qed.
Print Assumptions C45_wrong_order.
Definition ex_m1 : bytes := #"func /*<begin y>*//*old:f()*/g(n int)/*<end y>*/ { }".
Example C45_in_place_example :
  update_content ex_m1 (begin_mark #"y") (end_mark #"y") [#"f()"] 0 Replace #"h()" = Some #"func /*<begin y>*/f()h()/*<end y>*/ { }" /\
  recorded #"/*old:f()*/g(n int)" #"f()".
Proof.
  split; [vm_compute; reflexivity|]. apply (RecOld #"f()" #"g(n int)"). apply not_occurs_compute. reflexivity.
Qed.
