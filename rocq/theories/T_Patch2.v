(** * C32: applying a patch again changes nothing. *)
From Coq Require Import Ascii String List Arith Bool Lia.
From Verif Require Import M_Str M_Patch P_Str P_Patch P_Patch2 S_Patch P_Patch3 T_Patch.
Import ListNotations.
Open Scope nat_scope.

Lemma clear_after n src s : label_ok n -> tame n src s -> exec_inv src s -> directive_ok n src s ->
  clear_patch (apply_edits n src s) n = Some src.
Proof.
  intros L T V D. destruct (edits_doc n src s L T V) as (d & E & O & F). pose proof (t_src _ _ _ T) as Fs. rewrite <- O in Fs.
  pose proof (no_annot n d L Fs F) as Na. unfold clear_patch.
  assert (CA : clear_annots (length (apply_edits n src s)) n (apply_edits n src s) = Some (render d)).
  { unfold directive_ok in D. unfold apply_edits in *. cbn [without_directive s_directive s_append s_after s_seq s_groups] in D. rewrite E in *. destruct (s_directive s) as [[old new]|] eqn:Ed.
    - destruct (D old new eq_refl) as (D1 & D2 & D3). destruct (index (render d) old) as [i|] eqn:I.
      + apply clear_directive with (i := i); auto.
        * pose proof I as J. apply index_sound in J as (x & y & Ex & <-). rewrite Ex.
          assert (Sk : skipn (length x + length old) (x ++ old ++ y) = y) by (rewrite app_assoc; apply skipn_app_exact; now rewrite app_length).
          rewrite Sk. apply (D3 x y). exact Ex.
        * unfold apply_directive. rewrite I. rewrite !app_length. change (length annot_close) with 23. lia.
      + unfold apply_directive. rewrite I. now apply clear_annots_none.
    - now apply clear_annots_none. }
  rewrite CA. rewrite clear_doc; auto. now rewrite O.
Qed.

(** For every parser and syntax tree: a named block whose edits are tame can be taken out
    again, and applying it to the patched text gives the patched text. *)
Theorem C32_apply_partial :
  forall A b source src s r,
  label_ok (b_name b) -> b_name b <> [] ->
  clear_patch source (b_name b) = Some src ->
  exec_all A src init_state (b_commands b) = Some s ->
  tame (b_name b) src s -> directive_ok (b_name b) src s ->
  apply_blocks A source [b] = Some r ->
  clear_patch r (b_name b) = Some src /\ apply_blocks A r [b] = Some r.
Proof.
  intros A b source src s r L N C X T D H. pose proof (exec_all_inv A src _ _ _ (init_inv src) X) as V.
  cbn [apply_blocks] in H. destruct (b_name b) as [|n0 n] eqn:En; [congruence|]. rewrite <- En in *. clear n0 n En.
  rewrite C in H. unfold apply_patch in H. destruct (a_parses A src) eqn:Pa; [|discriminate]. rewrite X in H. apply some_inj in H.
  assert (Cr : clear_patch r (b_name b) = Some src) by (rewrite <- H; now apply clear_after). split; auto.
  cbn [apply_blocks]. destruct (b_name b) as [|n0 n] eqn:En; [congruence|]. rewrite <- En in *. rewrite Cr. unfold apply_patch. now rewrite Pa, X, H.
Qed.
Print Assumptions C32_apply_partial.

(** ** One position: conditions on the commands alone *)
Definition edit_text (c : command) : option bytes :=
  match c with InsertBefore t | InsertAfter t | InsertAfterLine t | ReplaceWith t => Some t | _ => None end.
Definition is_edit (c : command) : Prop := edit_text c <> None \/ c = Newline.
Definition is_position (c : command) : Prop :=
  match c with Goto _ | Match _ | FindForReplace _ => True | _ => False end.
(** What can be put together from texts and line breaks. *)
Inductive mixed (ts : list bytes) : bytes -> Prop :=
| mx_nil : mixed ts []
| mx_text t r : In t ts -> mixed ts r -> mixed ts (t ++ r)
| mx_line r : mixed ts r -> mixed ts (newline :: r).
Definition texts (cs : list command) : list bytes := flat_map (fun c => match edit_text c with Some t => [t] | None => [] end) cs.

Lemma mixed_app ts a b : mixed ts a -> mixed ts b -> mixed ts (a ++ b).
Proof. induction 1; intros Hb; cbn [app]; auto; [rewrite <- app_assoc|]; constructor; auto. Qed.
Lemma mixed_concat ts l : Forall (mixed ts) l -> mixed ts (concat l).
Proof. induction 1; cbn [concat]; [constructor|]. now apply mixed_app. Qed.
Lemma mixed_one ts t : In t ts -> mixed ts t.
Proof. intros I. rewrite <- (app_nil_r t). constructor; auto. constructor. Qed.

Lemma last_index_sound s w n : last_index s w = Some n -> exists a b, s = a ++ w ++ b /\ length a = n.
Proof.
  revert n. induction s as [|c s IH]; intros n H; cbn [last_index] in H.
  - destruct (has_prefix [] w) eqn:P; [|discriminate]. injection H as <-. apply has_prefix_iff in P as (r & E). exists [], r. auto.
  - destruct (last_index s w) as [m|].
    + injection H as <-. destruct (IH m eq_refl) as (a & b & -> & <-). exists (c :: a), b. auto.
    + destruct (has_prefix (c :: s) w) eqn:P; [|discriminate]. injection H as <-. apply has_prefix_iff in P as (r & E). exists [], r. auto.
Qed.
Lemma slice_of_slice src i j a w b : slice src i j = a ++ w ++ b -> slice src (i + length a) (i + length a + length w) = w /\ i + length a + length w <= length src \/ w = [] /\ a = [] /\ b = [].
Proof.
  intros E. destruct (le_lt_dec i (length src)) as [Li|Li].
  - left. assert (src = (firstn i src ++ a) ++ w ++ b ++ skipn (j - i) (skipn i src)).
    { rewrite <- (firstn_skipn i src) at 1. rewrite <- (firstn_skipn (j - i) (skipn i src)) at 1. unfold slice in E. rewrite E. now rewrite <- !app_assoc. }
    assert (La : length (firstn i src ++ a) = i + length a) by (rewrite app_length, firstn_length; lia). split.
    + rewrite H. apply slice_app; lia.
    + rewrite H. rewrite !app_length. rewrite app_length in La. lia.
  - right. unfold slice in E. rewrite skipn_all2 in E by lia. rewrite firstn_nil in E. destruct a; [|discriminate]. destruct w; [|discriminate]. destruct b; [auto|discriminate].
Qed.
Lemma eval_match_pos A src cur text fr c : text <> [] -> eval_match A src cur text fr = Some c ->
  slice src (c_offset c) (c_end c) = text /\ c_offset c <= c_end c /\ c_end c <= length src /\ c_replace c = fr.
Proof.
  intros Nt H. unfold eval_match in H. destruct (match a_node A src (c_offset cur) with Some r => r | None => (0, length src) end) as [ss se].
  match type of H with match ?x with _ => _ end = _ => destruct x as [idx|] eqn:B end.
  - apply some_inj in H. subst c. cbn [c_offset c_end c_replace]. destruct (fr && (ss <? c_offset cur) && (c_offset cur <=? se)) eqn:Q; [|discriminate].
    apply last_index_sound in B as (a & b & E & <-). apply slice_of_slice in E as [(E & L)|(E & _)]; [|congruence].
    apply andb_prop in Q as (Q & _). apply andb_prop in Q as (-> & _). split; [exact E|]. repeat split; lia.
  - destruct (index (slice src ss se) text) as [idx|] eqn:I; [|discriminate]. apply some_inj in H. subst c. cbn [c_offset c_end c_replace].
    apply index_sound in I as (a & b & E & <-). apply slice_of_slice in E as [(E & L)|(E & _)]; [|congruence]. split; [exact E|]. repeat split; lia.
Qed.

Definition one_inv (src : bytes) (ts : list bytes) (s : state) : Prop :=
  s_seq s = 1 /\ s_append s = [] /\ s_directive s = None /\
  c_offset (s_cursor s) <= length src /\ c_end (s_cursor s) <= length src /\
  (c_replace (s_cursor s) = true -> ~ occurs #"*/" (slice src (c_offset (s_cursor s)) (c_end (s_cursor s)))) /\
  forall g, In g (s_groups s) -> g_seq g = 1 /\ g_offset g <= length src /\ g_insert_end g <= length src /\ Forall (mixed ts) (g_segments g) /\
    (g_replace g = true -> ~ occurs #"*/" (g_old g)).
Lemma app_last_in P l x : Forall P l -> (forall y, P y -> P (y ++ x)) -> Forall P (app_last l x).
Proof.
  intros F H. induction F as [|y l Py F IH]; [constructor|]. cbn [app_last]. destruct l; constructor; auto.
Qed.
Lemma with_group_one src ts s f :
  (forall g, g_seq (f g) = g_seq g /\ g_offset (f g) = g_offset g /\ g_insert_end (f g) = g_insert_end g) ->
  (forall g, Forall (mixed ts) (g_segments g) -> Forall (mixed ts) (g_segments (f g))) ->
  (forall g, (g_replace g = true -> ~ occurs #"*/" (g_old g)) -> (g_replace (f g) = true -> ~ occurs #"*/" (g_old (f g)))) ->
  one_inv src ts s -> one_inv src ts (with_group s f).
Proof.
  intros F1 F2 F3 (S1 & S2 & S3 & S4 & S5 & S6 & G). unfold with_group, one_inv. cbn [s_seq s_append s_directive s_cursor s_groups].
  split; [exact S1|]. split; [exact S2|]. split; [exact S3|]. split; [exact S4|]. split; [exact S5|]. split; [exact S6|].
  destruct (find_group (s_groups s) (s_seq s)).
  - intros g' I. apply in_map_iff in I as (g1 & <- & I). destruct (G g1 I) as (G1 & G2 & G3 & G4 & G5).
    destruct (g_seq g1 =? s_seq s); [|auto 10]. destruct (F1 g1) as (-> & -> & ->). split; [exact G1|]. split; [exact G2|]. split; [exact G3|]. split; [now apply F2|now apply F3].
  - intros g' I. apply in_app_or in I as [I|[<-|[]]]; [now apply G|]. match goal with |- context [f ?x] => set (new := x) end.
    destruct (F1 new) as (-> & -> & ->). unfold new at 1 2 3. cbn [g_seq g_offset g_insert_end]. split; [exact S1|]. split; [exact S4|]. split; [lia|].
    split; [apply F2; constructor|apply F3; discriminate].
Qed.
Lemma slice_more s i j c : i <= j -> nth_error s j = Some c -> slice s i (S j) = slice s i j ++ [c].
Proof.
  revert s j. induction i as [|i IH]; intros s j L H.
  - unfold slice. cbn [skipn]. rewrite !Nat.sub_0_r. clear L. revert s H. induction j as [|j IHj]; intros [|d s] H; try discriminate; cbn [nth_error] in H.
    + injection H as ->. reflexivity.
    + cbn [firstn app]. f_equal. now apply IHj.
  - destruct j as [|j]; [lia|]. destruct s as [|d s]; [discriminate|]. cbn [nth_error] in H. unfold slice in *. cbn [skipn Nat.sub]. apply IH; auto. lia.
Qed.
Lemma one_step A src ts s c s' : is_edit c -> (forall t, edit_text c = Some t -> In t ts) ->
  one_inv src ts s -> exec A src s c = Some s' -> one_inv src ts s'.
Proof.
  intros [E|E] It V H.
  - pose proof V as (S1 & S2 & S3 & S4 & S5 & S6 & G).
    assert (Add : forall st t, In t ts -> one_inv src ts st -> one_inv src ts (with_group st (add_segment t))).
    { intros st t I Vs. apply with_group_one; auto. intros g F. cbn [add_segment g_segments]. apply Forall_app. split; auto. constructor; auto using mixed_one. }
    destruct c; cbn [edit_text] in E, It; try congruence; cbn [exec] in H; assert (Nt : text <> []) by (intros ->; discriminate);
      (destruct text as [|t0 t1]; [congruence|]; set (text := t0 :: t1) in *; clearbody text; clear t0 t1).
    + injection H as <-. apply Add; auto.
    + injection H as <-. apply Add; auto.
    + injection H as <-. apply Add; auto. unfold one_inv, set_after, set_cursor. cbn [s_seq s_append s_directive s_cursor s_groups].
      destruct (nth_error src (c_end (s_cursor s))) as [ch|] eqn:Nth; [|exact V]. destruct (eqc ch newline) eqn:Ec; [|exact V]. cbn [c_offset c_end c_replace].
      assert (Lt : c_end (s_cursor s) < length src) by (apply nth_error_Some; congruence).
      split; [exact S1|]. split; [exact S2|]. split; [exact S3|]. split; [exact S4|]. split; [lia|]. split; [|exact G].
      intros R. specialize (S6 R). intros O. apply S6.
      (* one more character, a line break *)
      apply eqc_eq in Ec. subst ch. destruct (le_lt_dec (c_offset (s_cursor s)) (c_end (s_cursor s))) as [Le|Gt].
      * assert (Q : slice src (c_offset (s_cursor s)) (S (c_end (s_cursor s))) = slice src (c_offset (s_cursor s)) (c_end (s_cursor s)) ++ newline :: []).
        { apply slice_more; auto. }
        rewrite Q in O. apply barrier in O as [O|O]; auto.
        -- exfalso. revert O. apply occurs_nil_left. discriminate.
        -- simpl. intuition discriminate.
        -- discriminate.
      * exfalso. unfold slice in O. replace (S (c_end (s_cursor s)) - c_offset (s_cursor s)) with 0 in O by lia. revert O. apply occurs_nil_left. discriminate.
    + destruct (c_replace (s_cursor s)) eqn:R; [|discriminate]. injection H as <-. apply with_group_one; auto.
      intros g F. cbn [add_replace g_segments]. apply Forall_app. split; auto. constructor; auto using mixed_one.
  - subst c. cbn [exec] in H. injection H as <-. apply with_group_one; auto.
    intros g F. cbn [add_newline g_segments]. apply app_last_in; auto. intros y My. apply mixed_app; auto. constructor. constructor.
Qed.
Lemma one_all A src ts cs : forall s s', Forall is_edit cs -> (forall t, In t (texts cs) -> In t ts) ->
  one_inv src ts s -> exec_all A src s cs = Some s' -> one_inv src ts s'.
Proof.
  induction cs as [|c cs IH]; intros s s' F It V H; cbn [exec_all] in H; [injection H as <-; auto|].
  inversion F; subst. destruct (exec A src s c) as [s1|] eqn:E; [|discriminate]. apply (IH s1 s'); auto.
  - intros t I. apply It. unfold texts. cbn [flat_map]. apply in_or_app. now right.
  - eapply one_step; eauto. intros t Et. apply It. unfold texts. cbn [flat_map]. rewrite Et. apply in_or_app. left. now left.
Qed.

(** A named block that goes to one place and edits there, any number of insertions and at
    most replacing the text it found: applying it again changes nothing, whatever the text,
    provided the text and what is inserted hold no marks of that name. *)
Theorem C32_apply_one_place :
  forall A name pos edits source src r,
  let b := {| b_name := name; b_commands := pos :: edits |} in
  label_ok name -> name <> [] ->
  is_position pos -> (forall t, pos = Match t \/ pos = FindForReplace t -> t <> []) ->
  (forall t, pos = FindForReplace t -> ~ occurs #"*/" t) ->
  Forall is_edit edits ->
  (forall t, mixed (texts edits) t -> free name t /\ ~ occurs #"/*old:" t) ->
  (forall t off rng, a_goto A t off rng = None \/ exists i j, a_goto A t off rng = Some (i, j) /\ i <= length t /\ j <= length t) ->
  clear_patch source name = Some src -> free name src ->
  apply_blocks A source [b] = Some r ->
  clear_patch r name = Some src /\ apply_blocks A r [b] = Some r.
Proof.
  intros A name pos edits source src r b L N P P1 P2 Fe M Go C Fs H.
  assert (X : exists s, exec_all A src init_state (pos :: edits) = Some s).
  { cbn [apply_blocks] in H. subst b. cbn [b_name b_commands] in H. destruct name; [congruence|]. rewrite C in H. unfold apply_patch in H.
    destruct (a_parses A src); [|discriminate]. cbn [b_name b_commands] in H. destruct (exec_all A src init_state (pos :: edits)) as [s|]; [eauto|discriminate]. }
  destruct X as (s & X).
  assert (V : one_inv src (texts edits) s).
  { pose proof X as X'. cbn [exec_all] in X'. destruct (exec A src init_state pos) as [s1|] eqn:E1; [|discriminate]. eapply one_all; eauto.
    destruct pos; try contradiction; cbn [exec] in E1.
    - destruct (Go src (c_offset (s_cursor init_state)) target) as [G|(i & j & G & Gi & Gj)]; rewrite G in E1; [discriminate|].
      cbn in E1. apply some_inj in E1. subst s1. repeat split; auto; try discriminate; cbn in H0; contradiction.
    - destruct (eval_match A src (s_cursor init_state) text false) as [c|] eqn:Em; [|discriminate]. cbn in E1. apply some_inj in E1. subst s1.
      apply eval_match_pos in Em as (E & L1 & L2 & R); [|apply P1; auto]. cbn [move].
      repeat split; cbn; auto; try lia; try (intros; congruence); try contradiction.
    - destruct (eval_match A src (s_cursor init_state) text true) as [c|] eqn:Em; [|discriminate]. cbn in E1. apply some_inj in E1. subst s1.
      apply eval_match_pos in Em as (E & L1 & L2 & R); [|apply P1; auto]. cbn [move].
      repeat split; cbn; auto; try lia; try contradiction. intros _. rewrite E. now apply P2. }
  pose proof (exec_all_inv A src _ _ _ (init_inv src) X) as (Vg & _). rewrite Forall_forall in Vg.
  destruct V as (S1 & S2 & S3 & S4 & S5 & S6 & G).
  apply (C32_apply_partial A b source src s r); auto.
  - split; auto.
    + intros g I. destruct (G g I) as (_ & _ & _ & Gs & _). apply M. unfold combine. destruct (g_replace g || s_after s); apply mixed_concat; auto. now apply Forall_rev.
    + intros g I R. now apply G.
    + intros g I. destruct (G g I) as (G1 & G2 & G3 & _). unfold start_of, len_of. destruct (g_replace g) eqn:R.
      * specialize (Vg g I R). apply f_equal with (f := @length ascii) in Vg. unfold slice in Vg. rewrite firstn_length, skipn_length in Vg. lia.
      * destruct (negb (s_after s) || (g_seq g <? s_seq s)); lia.
    + intros g g' I I' Lt. destruct (G g I) as (E0 & _). destruct (G g' I') as (E & _). lia.
    + congruence.
  - intros old new E. congruence.
Qed.
Print Assumptions C32_apply_one_place.

(** ** A concrete case *)
(** The file has no declarations, so every search is in the whole file. *)
Definition no_decls : ast := {| a_parses := fun _ => true; a_goto := fun _ _ _ => None; a_node := fun _ _ => None; a_func := fun _ _ => None |}.
Definition nl : string := String newline EmptyString.
Definition ex_file : bytes := #("package p" ++ nl ++ "// alpha beta" ++ nl ++ "// gamma" ++ nl)%string.
Definition ex_block : block :=
  {| b_name := #"b1"; b_commands := [FindForReplace #"beta"; ReplaceWith #"delta"; Match #"gamma"; InsertAfter #" one"; Newline; InsertAfter #"// two"] |}.
Definition ex_patched : bytes :=
  #("package p" ++ nl ++ "// alpha /*<begin b1>*//*old:beta*/delta/*<end b1>*/" ++ nl ++ "// gamma/*<begin b1>*/ one" ++ nl ++ "// two/*<end b1>*/" ++ nl)%string.
Lemma label_ok_dec l : forallb (fun c => negb (existsb (eqc c) #"/*<>")) l = true -> label_ok l.
Proof.
  intros H. apply Forall_forall. intros c I J. rewrite forallb_forall in H. specialize (H c I). apply negb_true_iff in H.
  assert (existsb (eqc c) #"/*<>" = true) by (apply existsb_exists; exists c; split; [exact J|apply eqc_refl]). congruence.
Qed.
Example C32_apply_example :
  exists s, exec_all no_decls ex_file init_state (b_commands ex_block) = Some s /\ tame #"b1" ex_file s /\ directive_ok #"b1" ex_file s /\
  apply_blocks no_decls ex_file [ex_block] = Some ex_patched /\ apply_blocks no_decls ex_patched [ex_block] = Some ex_patched.
Proof.
  eexists. split; [vm_compute; reflexivity|]. split; [|split; [|split; vm_compute; reflexivity]].
  - constructor; cbn [s_groups s_append s_after].
    + repeat split; apply not_occurs_compute; reflexivity.
    + intros g [<-|[<-|[]]]; (split; [repeat split|]; apply not_occurs_compute; reflexivity).
    + intros g [<-|[<-|[]]] _; apply not_occurs_compute; reflexivity.
    + intros g [<-|[<-|[]]]; vm_compute; lia.
    + intros g g' [<-|[<-|[]]] [<-|[<-|[]]] H; vm_compute in H |- *; lia.
    + congruence.
  - intros old new H. discriminate.
Qed.

(** ** Where it fails *)
(** Each case: the file after one application, and a different file after the second.
    (1) Two blocks, the second inserting text in which the first then finds its place.
    (2) One block whose edits are not in the order of the file: cleared to another text.
    (3) A block with no name is never taken out: it is applied over itself.
    (4) A replaced text that holds a comment is cut when it is taken out.
    (5) A directive that does not end its line loses the rest of the line. *)
Definition twice (src : bytes) (bs : list block) (r1 r2 : bytes) : Prop :=
  apply_blocks no_decls src bs = Some r1 /\ apply_blocks no_decls r1 bs = Some r2 /\ r1 <> r2.
Theorem C32_apply_refuted :
  twice #"package p // x"
    [ {| b_name := #"a"; b_commands := [Match #"x"; InsertBefore #"1"] |}; {| b_name := #"b"; b_commands := [Match #"package"; InsertBefore #"/*x*/"] |} ]
    #"/*<begin b>*//*x*//*<end b>*/package p // /*<begin a>*/1/*<end a>*/x"
    #"/*<begin b>*//*x*//*<end b>*/package p // x" /\
  (exists r src', apply_blocks no_decls #"package p // x abcd y" [ {| b_name := #"a"; b_commands := [FindForReplace #"y"; ReplaceWith #"1"; Match #"x"; InsertBefore #"2"] |} ] = Some r /\
     clear_patch r #"a" = Some src' /\ src' <> #"package p // x abcd y") /\
  twice #"package p // x" [ {| b_name := #""; b_commands := [Match #"x"; InsertBefore #"1"] |} ]
    #"package p // /*<begin >*/1/*<end >*/x" #"package p // /*<begin >*/1/*<end >*//*<begin >*/1/*<end >*/x" /\
  (exists r, apply_blocks no_decls #"package p /*x*/" [ {| b_name := #"a"; b_commands := [FindForReplace #"p /*x*/"; ReplaceWith #"q"] |} ] = Some r /\
     apply_blocks no_decls r [ {| b_name := #"a"; b_commands := [FindForReplace #"p /*x*/"; ReplaceWith #"q"] |} ] = None) /\
  (exists r, apply_blocks no_decls #"package p //go:a b" [ {| b_name := #"a"; b_commands := [ReplaceDirective #"//go:a" #"//go:c"] |} ] = Some r /\
     clear_patch r #"a" = Some #"package p //go:a").
Proof.
  split; [|split; [|split; [|split]]].
  - split; [|split]; [vm_compute; reflexivity|vm_compute; reflexivity|vm_compute; discriminate].
  - do 2 eexists. split; [vm_compute; reflexivity|]. split; [vm_compute; reflexivity|]. vm_compute. discriminate.
  - split; [|split]; [vm_compute; reflexivity|vm_compute; reflexivity|vm_compute; discriminate].
  - eexists. split; vm_compute; reflexivity.
  - eexists. split; vm_compute; reflexivity.
Qed.
Print Assumptions C32_apply_refuted.

(** ** C46: edits take effect at the place that is named *)
(** The place [i, j) that a positioning command at the head of a block finds. *)
Definition found (A : ast) (src : bytes) (pos : command) (i j : nat) : Prop :=
  match pos with
  | Goto target => a_goto A src 0 target = Some (i, j)
  | Match t | FindForReplace t =>
      a_node A src 0 = None /\
      exists a b, src = a ++ t ++ b /\ length a = i /\ j = i + length t /\ forall a' b', src = a' ++ t ++ b' -> i <= length a'
  | _ => False
  end.
(** The text with a marked [body] in the place of [i, j). *)
Definition marked_at (n src body : bytes) (i j : nat) (r : bytes) : Prop :=
  exists a m b, src = a ++ m ++ b /\ length a = i /\ length (a ++ m) = j /\ r = a ++ begin_mark n ++ body ++ end_mark n ++ b.
Lemma cut_at (src : bytes) i j : i <= j -> j <= length src -> exists a m b, src = a ++ m ++ b /\ length a = i /\ length (a ++ m) = j.
Proof.
  intros H1 H2. exists (firstn i src), (slice src i j), (skipn j src). rewrite slice_skipn by auto. rewrite firstn_skipn. split; auto.
  rewrite firstn_slice by auto. rewrite !firstn_length. lia.
Qed.
Lemma found_exec A src pos i j : found A src pos i j ->
  exec A src init_state pos = Some (move init_state {| c_offset := i; c_end := j; c_replace := match pos with FindForReplace _ => true | _ => false end |}).
Proof.
  destruct pos; cbn [found]; try contradiction.
  - intros H. cbn [exec]. cbn [init_state s_cursor c_offset]. rewrite H. reflexivity.
  - intros (H & a & b & E & La & -> & F). cbn [exec]. unfold eval_match. cbn [init_state s_cursor c_offset]. rewrite H. cbn [andb].
    assert (S0 : slice src 0 (length src) = src) by (unfold slice; rewrite Nat.sub_0_r; apply firstn_all).
    rewrite S0. rewrite (index_least src text a b E) by (rewrite La; exact F). rewrite La. reflexivity.
  - intros (H & a & b & E & La & -> & F). cbn [exec]. unfold eval_match. cbn [init_state s_cursor c_offset]. rewrite H. cbn [andb Nat.ltb Nat.leb].
    assert (S0 : slice src 0 (length src) = src) by (unfold slice; rewrite Nat.sub_0_r; apply firstn_all).
    rewrite S0. rewrite (index_least src text a b E) by (rewrite La; exact F). rewrite La. reflexivity.
Qed.

Lemma one_group n src cur after g : g_seq g = 1 ->
  apply_edits n src {| s_cursor := cur; s_seq := 1; s_after := after; s_groups := [g]; s_append := []; s_directive := None |} = apply_group n after 1 src g.
Proof. intros E. unfold apply_edits. cbn. rewrite E. reflexivity. Qed.
Lemma wrap3 (a b n u : bytes) : a ++ (#"/*<begin " ++ n ++ #">*/" ++ [] ++ u ++ #"/*<end " ++ n ++ #">*/") ++ b = a ++ begin_mark n ++ u ++ end_mark n ++ b.
Proof. unfold begin_mark, end_mark. cbn [app]. rewrite <- !app_assoc. cbn [app]. reflexivity. Qed.

(** One place, one edit: the new text stands, marked, right before, right after or in the
    place of what was found, and everything else is as it was. *)
Theorem C46_edit_at_place_partial :
  forall A n src pos i j u,
  a_parses A src = true -> found A src pos i j -> i <= j -> j <= length src -> u <> [] ->
  (exists r, apply_patch A src {| b_name := n; b_commands := [pos; InsertBefore u] |} = Some r /\ marked_at n src u i i r) /\
  (exists r, apply_patch A src {| b_name := n; b_commands := [pos; InsertAfter u] |} = Some r /\ marked_at n src u j j r) /\
  (forall t, pos = FindForReplace t -> t <> [] ->
   exists r, apply_patch A src {| b_name := n; b_commands := [pos; ReplaceWith u] |} = Some r /\ marked_at n src (#"/*old:" ++ t ++ #"*/" ++ u) i j r).
Proof.
  intros A n src pos i j u Pa F Lij Lj Nu. pose proof (found_exec A src pos i j F) as E.
  destruct (cut_at src i j Lij Lj) as (a & m & b & Es & La & Lm).
  assert (Hu : exists c v, u = c :: v) by (destruct u; [congruence|eauto]). destruct Hu as (c0 & v & Hu).
  unfold apply_patch. rewrite Pa. cbn [b_name b_commands exec_all]. rewrite E. cbn [exec]. rewrite Hu. rewrite <- Hu. split; [|split].
  - eexists. split; [reflexivity|]. exists a, [], (m ++ b). rewrite app_nil_r. repeat split; auto.
    unfold with_group. cbn [set_after move init_state s_cursor s_seq s_after s_groups s_append s_directive find_group find app c_offset c_end].
    rewrite one_group by reflexivity. unfold apply_group, combine, add_segment. cbn [g_replace g_segments g_seq g_offset g_insert_end orb rev app concat negb].
    rewrite app_nil_r. rewrite Hu at 1. cbn iota. rewrite Es. rewrite firstn_app_exact, skipn_app_exact by auto. apply wrap3.
  - eexists. split; [reflexivity|]. exists (a ++ m), [], b. rewrite app_nil_r. repeat split; auto; [now rewrite <- app_assoc|].
    unfold with_group. cbn [set_after move init_state s_cursor s_seq s_after s_groups s_append s_directive find_group find app c_offset c_end].
    rewrite one_group by reflexivity. unfold apply_group, combine, add_segment. cbn [g_replace g_segments g_seq g_offset g_insert_end orb rev app concat negb].
    change (1 <? 1) with false. cbn iota. rewrite app_nil_r. rewrite Hu at 1. cbn iota. rewrite Nat.max_r by auto. rewrite Es, (app_assoc a m b). rewrite firstn_app_exact, skipn_app_exact by auto. apply wrap3.
  - intros t -> Nt. cbn [move s_cursor c_replace c_offset c_end].
    assert (Em : slice src i j = m) by (rewrite Es; apply slice_app; [auto|rewrite app_length in Lm; lia]).
    assert (Et : t = m).
    { destruct F as (_ & a' & b' & E' & La' & -> & _). rewrite <- Em, E'. symmetry. apply slice_app; lia. }
    rewrite Em. eexists. split; [reflexivity|]. exists a, m, b. repeat split; auto.
    unfold with_group. cbn [set_after move init_state s_cursor s_seq s_after s_groups s_append s_directive find_group find app c_offset c_end].
    rewrite one_group by reflexivity. unfold apply_group, combine, add_replace. cbn [g_replace g_segments g_seq g_offset g_insert_end g_old orb rev app concat negb].
    rewrite app_nil_r. assert (Hm : exists d w, m = d :: w) by (rewrite <- Et; destruct t; [congruence|eauto]). destruct Hm as (d & w & Hm). rewrite Et.
    rewrite Es. rewrite firstn_app_exact by auto. rewrite (app_assoc a m b). rewrite skipn_app_exact by (rewrite <- La; now rewrite app_length).
    unfold begin_mark, end_mark. rewrite <- !app_assoc. do 4 f_equal. rewrite Hm at 1. cbn iota. now rewrite <- !app_assoc.
Qed.
Print Assumptions C46_edit_at_place_partial.
Example C46_example :
  found no_decls ex_file (Match #"gamma") 27 32 /\
  apply_patch no_decls ex_file {| b_name := #"b1"; b_commands := [Match #"gamma"; InsertAfter #"!"] |} =
  Some #("package p" ++ nl ++ "// alpha beta" ++ nl ++ "// gamma/*<begin b1>*/!/*<end b1>*/" ++ nl)%string.
Proof.
  split; [|vm_compute; reflexivity]. split; [reflexivity|]. assert (I : index ex_file #"gamma" = Some 27) by (vm_compute; reflexivity).
  pose proof I as J. apply index_sound in J as (a & b & E & La). exists a, b. split; [exact E|]. split; [exact La|]. split; [reflexivity|].
  intros a' b' E'. apply (index_first _ _ _ I _ _ E').
Qed.

(** With more than one place it fails:
    (1) two insertions after two places: the first is put before its place;
    (2) an edit before any place was named is dropped without an error;
    (3) an insertion before and one after the same place both go where the last one goes;
    (4) places out of the order of the file: the second edit is written into the mark of the
        first, and what is left is no longer a comment. *)
Theorem C46_edit_at_place_refuted :
  apply_patch no_decls #"package p // x y" {| b_name := #"a"; b_commands := [Match #"x"; InsertAfter #"1"; Match #"y"; InsertAfter #"2"] |} =
    Some #"package p // /*<begin a>*/1/*<end a>*/x y/*<begin a>*/2/*<end a>*/" /\
  apply_patch no_decls #"package p // x y" {| b_name := #"a"; b_commands := [InsertBefore #"1"; Match #"y"; InsertBefore #"2"] |} =
    Some #"package p // x /*<begin a>*/2/*<end a>*/y" /\
  apply_patch no_decls #"package p // x y" {| b_name := #"a"; b_commands := [Match #"x"; InsertBefore #"1"; InsertAfter #"2"] |} =
    Some #"package p // x/*<begin a>*/12/*<end a>*/ y" /\
  apply_patch no_decls #"package p // x y" {| b_name := #"a"; b_commands := [Match #"y"; InsertBefore #"1"; Match #"x"; InsertBefore #"2"] |} =
    Some #"package p // /*/*<begin a>*/1/*<end a>*/<begin a>*/2/*<end a>*/x y".
Proof. repeat split; vm_compute; reflexivity. Qed.
Print Assumptions C46_edit_at_place_refuted.
