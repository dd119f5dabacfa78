(** * Applying the edits of one patch block and clearing them again. *)
From Coq Require Import Ascii String List Arith Bool Lia.
From Verif Require Import M_Str M_Patch P_Str P_Patch P_Patch2 S_Patch.
Import ListNotations.
Open Scope nat_scope.

Lemma occurs_head_skip c w x y : ~ In c x -> occurs (c :: w) (x ++ y) -> occurs (c :: w) y.
Proof.
  induction x as [|d x IH]; intros N O; auto. apply IH; [intros I; apply N; now right|]. destruct O as (a & b & E).
  destruct a as [|e a]; [injection E as -> _; destruct N; now left|]. injection E as _ E. now exists a, b.
Qed.
Lemma old_free kw n m t : label_ok n -> ~ In "*"%char kw -> ~ In "/"%char kw ->
  ~ occurs ("<"%char :: kw ++ n ++ #">") m -> ~ occurs ("<"%char :: kw ++ n ++ #">") t ->
  ~ occurs ("<"%char :: kw ++ n ++ #">") (#"/*old:" ++ m ++ #"*/" ++ t).
Proof.
  intros L K1 K2 Hm Ht O. apply occurs_head_skip in O; [|simpl; intuition discriminate]. change (m ++ #"*/" ++ t) with (m ++ "*"%char :: #"/" ++ t) in O.
  apply barrier in O; [|intros I|discriminate].
  - destruct O as [O|O]; [auto|]. apply occurs_head_skip in O; [auto|simpl; intuition discriminate].
  - destruct I as [I|I]; [discriminate|]. apply in_app_or in I as [I|I]; auto. apply in_app_or in I as [I|I]; [|simpl in I; intuition discriminate].
    now apply (label_no n "*"%char L ltac:(inlit)).
Qed.
Definition named (n : bytes) (b : blk) : Prop := blk_named n b /\ ~ occurs (#"<next-line-original " ++ n ++ #">") (k_between b).
Lemma named_insert n t : free n t -> ~ occurs #"/*old:" t -> named n {| k_label := n; k_old := []; k_between := t |}.
Proof.
  intros (_ & F2 & F3) O. split; [split; [reflexivity|split]|]; cbn [k_between k_old]; auto.
  - intros X. apply F2. change (#"/*<end " ++ n ++ #">") with (#"/*" ++ (#"<end " ++ n ++ #">")) in X. now apply occurs_suffix in X.
  - unfold extract_old. now rewrite (proj2 (index_none_iff _ _) O).
Qed.
Lemma extract_old_here m t : ~ occurs #"*/" m -> extract_old (#"/*old:" ++ m ++ #"*/" ++ t) = m.
Proof.
  intros N. unfold extract_old. rewrite index_here. change (0 + 6) with (length #"/*old:"). rewrite skipn_app_exact by reflexivity.
  rewrite index_unbordered; auto.
  - apply slice_app; reflexivity.
  - apply unbordered_first. simpl. intuition discriminate.
Qed.
Lemma named_replace n m t : label_ok n -> free n m -> free n t -> ~ occurs #"*/" m ->
  named n {| k_label := n; k_old := m; k_between := #"/*old:" ++ m ++ #"*/" ++ t |}.
Proof.
  intros L (_ & M2 & M3) (_ & F2 & F3) O. split; [split; [reflexivity|split]|]; cbn [k_between k_old].
  - intros X. change (#"/*<end " ++ n ++ #">") with (#"/*" ++ (#"<end " ++ n ++ #">")) in X. apply occurs_suffix in X. revert X.
    apply (old_free #"end " n m t); auto; simpl; intuition discriminate.
  - now apply extract_old_here.
  - apply (old_free #"next-line-original " n m t); auto; simpl; intuition discriminate.
Qed.
Lemma free_occurs n m t : occurs m t -> free n t -> free n m.
Proof. intros O (F1 & F2 & F3). repeat split; intros X; [apply F1|apply F2|apply F3]; eapply occurs_trans; eauto. Qed.

Lemma skipn_add {X} a b (l : list X) : skipn a (skipn b l) = skipn (b + a) l.
Proof. revert l. induction b as [|b IH]; intros l; [reflexivity|]. destruct l; simpl; [apply skipn_nil|apply IH]. Qed.
Lemma slice_skipn s i j : i <= j -> slice s i j ++ skipn j s = skipn i s.
Proof.
  intros L. unfold slice. replace j with (i + (j - i)) at 2 by lia. rewrite <- skipn_add. apply firstn_skipn.
Qed.
Lemma slice_occurs s i j : occurs (slice s i j) s.
Proof.
  exists (firstn i s), (skipn (j - i) (skipn i s)). unfold slice. rewrite firstn_skipn. symmetry. apply firstn_skipn.
Qed.
Lemma firstn_slice s i j : i <= j -> firstn i s ++ slice s i j = firstn j s.
Proof.
  unfold slice. revert s j. induction i as [|i IH]; intros s j L; [simpl; now rewrite Nat.sub_0_r|].
  destruct j as [|j]; [lia|]. destruct s as [|c s]; [simpl; now rewrite firstn_nil|]. simpl. f_equal. apply IH. lia.
Qed.

(** What is in a group comes from the place the group is at. *)
Definition group_inv (src : bytes) (g : group) : Prop := g_replace g = true -> g_old g = slice src (g_offset g) (g_offset g + length (g_old g)).
Lemma slice_self s i j : slice s i j = slice s i (i + length (slice s i j)).
Proof.
  unfold slice at 1 2. replace (i + length (slice s i j) - i) with (length (slice s i j)) by lia. unfold slice. rewrite firstn_length. 
  set (t := skipn i s). destruct (le_lt_dec (j - i) (length t)); [now rewrite Nat.min_l by lia|].
  rewrite Nat.min_r by lia. now rewrite firstn_all, firstn_all2 by lia.
Qed.
Definition exec_inv (src : bytes) (s : state) : Prop :=
  Forall (group_inv src) (s_groups s) /\
  (forall g, In g (s_groups s) -> g_seq g <= s_seq s /\ (g_seq g = s_seq s -> g_offset g = c_offset (s_cursor s))).
Lemma with_group_inv src s f :
  (forall g, g_seq (f g) = g_seq g /\ g_offset (f g) = g_offset g) ->
  (forall g, group_inv src g -> g_offset g = c_offset (s_cursor s) -> group_inv src (f g)) ->
  exec_inv src s -> exec_inv src (with_group s f).
Proof.
  intros F1 F2 (G & Q). unfold with_group, exec_inv. cbn [s_groups s_cursor s_seq]. destruct (find_group (s_groups s) (s_seq s)) as [g0|].
  - rewrite Forall_forall in *. split.
    + intros g I. apply in_map_iff in I as (g1 & <- & I). destruct (Nat.eqb_spec (g_seq g1) (s_seq s)) as [E|E]; auto.
      apply F2; auto. now apply Q.
    + intros g I. apply in_map_iff in I as (g1 & <- & I). destruct (Q g1 I) as (Q1 & Q2). destruct (Nat.eqb_spec (g_seq g1) (s_seq s)) as [E|E]; auto.
      destruct (F1 g1) as (-> & ->). auto.
  - match goal with |- context [f ?x] => set (new := x) end. assert (On : g_offset new = c_offset (s_cursor s)) by reflexivity.
    assert (Sn : g_seq new = s_seq s) by reflexivity. destruct (F1 new) as (F1a & F1b). split.
    + apply Forall_app. split; auto. constructor; auto. apply F2; auto. intros H. discriminate.
    + intros g I. apply in_app_or in I as [I|[<-|[]]]; auto. rewrite F1a, F1b. lia.
Qed.
Lemma exec_inv_step A src s c s' : exec_inv src s -> exec A src s c = Some s' -> exec_inv src s'.
Proof.
  intros V. pose proof V as (G & Q).
  assert (Mv : forall cur, exec_inv src (move s cur)).
  { intros cur. split; [exact G|]. cbn. intros g I. destruct (Q g I). split; lia. }
  assert (Sg : forall f st, exec_inv src st -> (forall g, g_seq (f g) = g_seq g /\ g_offset (f g) = g_offset g /\ g_replace (f g) = g_replace g /\ g_old (f g) = g_old g) ->
               exec_inv src (with_group st f)).
  { intros f st Vs H. apply with_group_inv; auto; intros g; destruct (H g) as (? & ? & E1 & E2); auto.
    unfold group_inv. rewrite H1, E1, E2. auto. }
  assert (Sa : forall a, exec_inv src (set_after s a)) by (intros a; exact V).
  destruct c; cbn [exec]; intros H.
  - destruct (a_goto A src (c_offset (s_cursor s)) target); [|discriminate]. apply f_equal with (f := fun o => match o with Some x => x | None => s end) in H. cbn in H. subst s'. apply Mv.
  - destruct (eval_match A src (s_cursor s) text false); [|discriminate]. cbn in H. injection H as <-. apply Mv.
  - destruct (eval_match A src (s_cursor s) text true); [|discriminate]. cbn in H. injection H as <-. apply Mv.
  - destruct text; [discriminate|]. injection H as <-. apply Sg; auto.
  - destruct text; [discriminate|]. injection H as <-. apply Sg; auto.
  - destruct text; [discriminate|]. injection H as <-. apply Sg; auto. split; [exact G|]. cbn. intros g I. destruct (Q g I) as (Q1 & Q2). split; auto.
    intros E. rewrite Q2 by auto. destruct (nth_error src (c_end (s_cursor s))) as [ch|]; [destruct (eqc ch newline)|]; reflexivity.
  - destruct text; [discriminate|]. destruct (c_replace (s_cursor s)); [|discriminate]. injection H as <-. apply with_group_inv; auto.
    intros g Ig Eo R. cbn [add_replace g_old g_offset]. rewrite Eo. apply slice_self.
  - injection H as <-. apply Sg; auto.
  - destruct (eval_copy A src source target); [|discriminate]. injection H as <-. exact V.
  - destruct old; [discriminate|]. destruct new; [discriminate|]. injection H as <-. exact V.
Qed.
Lemma exec_all_inv A src cs : forall s s', exec_inv src s -> exec_all A src s cs = Some s' -> exec_inv src s'.
Proof.
  induction cs as [|c cs IH]; intros s s' V H; cbn [exec_all] in H; [injection H as <-; auto|].
  destruct (exec A src s c) as [s1|] eqn:E; [|discriminate]. eapply IH; [|exact H]. eapply exec_inv_step; eauto.
Qed.
Lemma init_inv src : exec_inv src init_state.
Proof. split; [constructor|]. intros g []. Qed.

Lemma find_group_in gs i g : find_group gs i = Some g -> In g gs /\ g_seq g = i.
Proof. intros H. apply find_some in H as (I & E). apply Nat.eqb_eq in E. auto. Qed.
Definition block_text (n body : bytes) : bytes := render_blk {| k_label := n; k_old := []; k_between := body |}.
Lemma wrap_eq n b rest : #"/*<begin " ++ n ++ #">*/" ++ b ++ #"/*<end " ++ n ++ #">*/" ++ rest = (begin_mark n ++ b ++ end_mark n) ++ rest.
Proof. unfold begin_mark, end_mark. rewrite <- !app_assoc. reflexivity. Qed.

Lemma groups_doc n src s : label_ok n -> tame n src s -> Forall (group_inv src) (s_groups s) ->
  forall seq p d, (forall g, In g (s_groups s) -> g_seq g <= seq -> start_of s g + len_of g <= p) -> p <= length src ->
  origin d = skipn p src -> Forall (fun q => named n (fst q)) (snd d) ->
  exists p' d', apply_groups n (s_after s) (s_seq s) (s_groups s) seq (firstn p src ++ render d) = firstn p' src ++ render d' /\
    p' <= length src /\ origin d' = skipn p' src /\ Forall (fun q => named n (fst q)) (snd d') /\
    (forall t, (exists z, render d = z ++ t) -> exists z, render d' = z ++ t).
Proof.
  intros L T V. induction seq as [|seq IH]; intros p d Le Lp Od F.
  - exists p, d. simpl. repeat split; auto.
  - cbn [apply_groups]. destruct (find_group (s_groups s) (S seq)) as [g|] eqn:Fg.
    2:{ apply IH; auto. }
    apply find_group_in in Fg as (Ig & Sg). pose proof (Le g Ig ltac:(lia)) as Lg.
    assert (Next : forall q, q = start_of s g -> forall g', In g' (s_groups s) -> g_seq g' <= seq -> start_of s g' + len_of g' <= q).
    { intros q -> g' I' L'. apply (t_order _ _ _ T); auto. lia. }
    assert (Vg : group_inv src g) by (rewrite Forall_forall in V; auto).
    destruct (t_text _ _ _ T g Ig) as (Ft & Ot). 
    set (at_ := start_of s g) in *. set (e := at_ + len_of g) in *.
    assert (Hd : firstn at_ (firstn p src ++ render d) = firstn at_ src).
    { rewrite firstn_app, firstn_firstn, firstn_length. rewrite (Nat.min_l at_ p) by lia.
      replace (at_ - Nat.min p (length src)) with 0 by lia. simpl. apply app_nil_r. }
    assert (Tl : skipn e (firstn p src ++ render d) = slice src e p ++ render d).
    { rewrite skipn_app, firstn_length. replace (e - Nat.min p (length src)) with 0 by lia. simpl. f_equal.
      unfold slice. rewrite skipn_firstn_comm. reflexivity. }
    assert (Step : forall b, named n b -> k_old b = slice src at_ e ->
       apply_group n (s_after s) (s_seq s) (firstn p src ++ render d) g = firstn at_ src ++ render_blk b ++ slice src e p ++ render d ->
       exists p' d', apply_groups n (s_after s) (s_seq s) (s_groups s) seq (apply_group n (s_after s) (s_seq s) (firstn p src ++ render d) g) = firstn p' src ++ render d' /\
         p' <= length src /\ origin d' = skipn p' src /\ Forall (fun q => named n (fst q)) (snd d') /\
         (forall t, (exists z, render d = z ++ t) -> exists z, render d' = z ++ t)).
    { intros b Nb Ob Eq. destruct d as [r l]. destruct (IH at_ ([], (b, slice src e p ++ r) :: l)) as (p' & d' & E1 & E2 & E3 & E4 & E5).
      - now apply Next.
      - lia.
      - rewrite origin_cons. rewrite Ob. cbn [app]. transitivity (slice src at_ e ++ slice src e p ++ origin (r, l)).
        + f_equal. unfold origin. cbn [fst snd]. now rewrite <- app_assoc.
        + rewrite Od, slice_skipn by lia. now rewrite slice_skipn by lia.
      - constructor; auto.
      - exists p', d'. repeat split; auto.
        2:{ intros t (z & Hz). apply E5. exists (render_blk b ++ slice src e p ++ z). rewrite render_cons. cbn [app]. unfold render in *. cbn [fst snd] in *. rewrite <- !app_assoc. now rewrite Hz. }
        rewrite <- E1. f_equal. rewrite Eq. rewrite render_cons. cbn [app]. f_equal. f_equal. unfold render. cbn [fst snd]. now rewrite <- app_assoc. }
    pose proof (fun H => t_old _ _ _ T g Ig H) as To.
    assert (Pos : if g_replace g then g_offset g = at_ /\ length (g_old g) = len_of g
                  else (if negb (s_after s) || (g_seq g <? s_seq s) then g_offset g else g_insert_end g) = at_ /\ len_of g = 0).
    { unfold at_, start_of, len_of. destruct (g_replace g); auto. }
    clearbody at_. unfold apply_group in *. destruct (g_replace g) eqn:R.
    + destruct Pos as (Po & Pl). specialize (To eq_refl). specialize (Vg R). rewrite Po, Pl in *. fold e in Vg, Step |- *. rewrite Hd, Tl in *.
      destruct (g_old g) as [|o0 o] eqn:Eo.
      * apply (Step {| k_label := n; k_old := []; k_between := combine (s_after s) g |}).
        -- now apply named_insert.
        -- cbn [k_old]. exact Vg.
        -- unfold render_blk, begin_mark, end_mark. cbn [k_label k_between]. cbn [app]. now rewrite <- !app_assoc.
      * rewrite <- Eo in *. apply (Step {| k_label := n; k_old := g_old g; k_between := #"/*old:" ++ g_old g ++ #"*/" ++ combine (s_after s) g |}).
        -- apply named_replace; auto. apply (free_occurs _ _ src); [rewrite Vg; apply slice_occurs|apply (t_src _ _ _ T)].
        -- exact Vg.
        -- unfold render_blk, begin_mark, end_mark. cbn [k_label k_between]. now rewrite <- !app_assoc.
    + destruct Pos as (Po & Pl). rewrite Po in *. assert (Ee : e = at_) by (unfold e; lia). clearbody e. subst e.
      destruct (combine (s_after s) g) as [|c0 c] eqn:Ec.
      * apply IH; auto.
      * rewrite <- Ec in *. rewrite Hd, Tl in *. apply (Step {| k_label := n; k_old := []; k_between := combine (s_after s) g |}).
        -- now apply named_insert.
        -- cbn [k_old]. unfold slice. now rewrite Nat.sub_diag.
        -- unfold render_blk, begin_mark, end_mark. cbn [k_label k_between]. cbn [app]. now rewrite <- !app_assoc.
Qed.

Lemma render_snoc r l b t : render (r, l ++ [(b, t)]) = render (r, l) ++ render_blk b ++ t.
Proof. unfold render, render_list. cbn [fst snd]. rewrite map_app, concat_app. cbn [map concat fst snd]. rewrite app_nil_r. now rewrite <- app_assoc. Qed.
Lemma origin_snoc r l b t : origin (r, l ++ [(b, t)]) = origin (r, l) ++ k_old b ++ t.
Proof. unfold origin, origin_list. cbn [fst snd]. rewrite map_app, concat_app. cbn [map concat fst snd]. rewrite app_nil_r. now rewrite <- app_assoc. Qed.
Lemma suffix_char s c : has_suffix s [c] = true -> exists a, s = a ++ [c].
Proof.
  intros H. apply has_suffix_iff in H. destruct H as [t E]. exists t. exact E.
Qed.
Lemma suffix_of a t c : has_suffix t [c] = true -> has_suffix (a ++ t) [c] = true.
Proof. intros H. apply suffix_char in H as (x & ->). apply has_suffix_iff. exists (a ++ x). now rewrite app_assoc. Qed.
Lemma max_end s (src : bytes) gs : (forall g, In g gs -> start_of s g + len_of g < length src) ->
  src <> [] -> exists q, q < length src /\ forall g, In g gs -> start_of s g + len_of g <= q.
Proof.
  induction gs as [|g gs IH]; intros H N.
  - exists 0. destruct src; [congruence|]. simpl. split; [lia|]. intros g [].
  - destruct IH as (q & Q1 & Q2); auto; [intros; apply H; now right|]. exists (Nat.max q (start_of s g + len_of g)). split.
    + specialize (H g (or_introl eq_refl)). lia.
    + intros g' [<-|I]; [lia|]. specialize (Q2 g' I). lia.
Qed.
(** The text before the directive is a marked text whose original is [src]. *)
Lemma edits_doc n src s : label_ok n -> tame n src s -> exec_inv src s ->
  exists d, apply_append n (s_append s) (apply_groups n (s_after s) (s_seq s) (s_groups s) (s_seq s) src) = render d /\
    origin d = src /\ Forall (fun q => named n (fst q)) (snd d).
Proof.
  intros L T (V & _).
  assert (Whole : forall q, q <= length src -> (forall g, In g (s_groups s) -> start_of s g + len_of g <= q) ->
    exists d, apply_groups n (s_after s) (s_seq s) (s_groups s) (s_seq s) src = render d /\ origin d = src /\ Forall (fun q => named n (fst q)) (snd d) /\
      exists z, render d = z ++ skipn q src).
  { intros q Lq Hq. destruct (groups_doc n src s L T V (s_seq s) q (skipn q src, [])) as (p & [r l] & E1 & E2 & E3 & E4 & E5); auto.
    - unfold origin, origin_list. cbn. apply app_nil_r.
    - constructor.
    - exists (firstn p src ++ r, l). unfold render, origin in *. cbn [fst snd] in *.
      replace (firstn q src ++ skipn q src ++ render_list []) with src in E1 by (unfold render_list; cbn; rewrite app_nil_r; symmetry; apply firstn_skipn).
      rewrite <- !app_assoc. rewrite E3. rewrite firstn_skipn. repeat split; auto.
      destruct (E5 (skipn q src)) as (z & Ez).
      + exists []. unfold render_list. cbn. apply app_nil_r.
      + exists (firstn p src ++ z). rewrite Ez. now rewrite <- app_assoc. }
  unfold apply_append. destruct (s_append s) as [|a0 a] eqn:Ea.
  - destruct (Whole (length src)) as (d & E1 & E2 & E3 & _); auto; [apply (t_range _ _ _ T)|]. exists d. auto.
  - destruct (t_app _ _ _ T) as (Fa & Oa & Sx & Rg); [rewrite Ea; discriminate|]. rewrite <- Ea in *.
    destruct (max_end s src (s_groups s) Rg) as (q & Q1 & Q2).
    { intros ->. discriminate. }
    destruct (Whole q ltac:(lia) Q2) as ([r l] & E1 & E2 & E3 & (z & Ez)). rewrite E1.
    assert (Sf : has_suffix (render (r, l)) [newline] = true).
    { rewrite Ez. apply suffix_of. apply suffix_char in Sx as (x & Ex). rewrite Ex in *. rewrite app_length in Q1. simpl in Q1.
      rewrite skipn_app. replace (q - length x) with 0 by lia. apply has_suffix_iff. exists (skipn q x). reflexivity. }
    rewrite Sf. exists (r, l ++ [({| k_label := n; k_old := []; k_between := s_append s |}, [])]). rewrite render_snoc, origin_snoc, E2. cbn [k_old app].
    rewrite !app_nil_r. split; [|split]; auto.
    + unfold render_blk, begin_mark, end_mark. cbn [k_label k_between]. now rewrite <- !app_assoc.
    + apply Forall_app. split; auto. constructor; auto. now apply named_insert.
Qed.

(** ** Clearing *)
Lemma annot_word n : label_ok n -> next_word (#"<next-line-original " ++ n ++ #">").
Proof.
  intros L. exists (#"ext-line-original " ++ n ++ #">"). split; [reflexivity|].
  split; intros I; (apply in_app_or in I as [I|I]; [simpl in I; intuition discriminate|]; apply in_app_or in I as [I|I]; [|simpl in I; intuition discriminate]).
  - now apply (label_no n "/"%char L ltac:(inlit)).
  - now apply (label_no n "*"%char L ltac:(inlit)).
Qed.
Lemma no_annot n d : label_ok n -> free n (origin d) -> Forall (fun q => named n (fst q)) (snd d) ->
  ~ occurs (#"<next-line-original " ++ n ++ #">") (render d).
Proof.
  intros L (_ & _ & F3) F. destruct d as [r l]. apply render_free; auto using annot_word.
  eapply Forall_impl; [|exact F]. intros q ((E & _) & H). split; auto. now rewrite E.
Qed.
Lemma clear_annots_none n c fuel : ~ occurs (#"<next-line-original " ++ n ++ #">") c -> clear_annots fuel n c = Some c.
Proof.
  intros N. assert (I : index c (annot_begin n) = None).
  { apply index_none_iff. intros O. apply N. unfold annot_begin in O. change #"/*<next-line-original " with (#"/*" ++ #"<next-line-original ") in O.
    rewrite <- app_assoc in O. now apply occurs_suffix in O. }
  destruct fuel; simpl; now rewrite I.
Qed.
Lemma clear_doc n d fuel : label_ok n -> free n (origin d) -> Forall (fun q => named n (fst q)) (snd d) -> length (render d) <= fuel ->
  clear_blocks fuel n (render d) = Some (origin d).
Proof.
  intros L (F1 & _) F Lf. destruct d as [r l]. apply clear_blocks_doc; auto.
  - eapply Forall_impl; [|exact F]. intros q (H & _). exact H.
  - intros O. apply F1. unfold mark_begin in O. change #"/*<begin " with (#"/*" ++ #"<begin ") in O. rewrite <- app_assoc in O. now apply occurs_suffix in O.
  - pose proof (blocks_length l). unfold render in Lf. cbn [fst snd] in Lf. rewrite app_length in Lf. unfold bytes in *. lia.
Qed.
(** A directive that ends its line can be taken out. *)
Lemma clear_directive n res old new i fuel :
  label_ok n -> ~ occurs (#"<next-line-original " ++ n ++ #">") res -> index res old = Some i ->
  ~ occurs annot_close old -> ~ In newline new ->
  (skipn (i + length old) res = [] \/ exists y, skipn (i + length old) res = newline :: y) -> 0 < fuel ->
  clear_annots fuel n (apply_directive n (Some (old, new)) res) = Some res.
Proof.
  intros L N I C Nn Y Lf. unfold apply_directive. rewrite I. apply index_sound in I as (x & y & -> & <-).
  rewrite firstn_app_exact by reflexivity.
  assert (Sk : skipn (length x + length old) (x ++ old ++ y) = y).
  { rewrite app_assoc. apply skipn_app_exact. now rewrite app_length. }
  rewrite Sk in *. destruct fuel as [|fuel]; [lia|].
  assert (Nx : ~ occurs (#"<next-line-original " ++ n ++ #">") x) by (intros O; apply N; now apply occurs_app_l).
  rewrite <- !app_assoc. cbn [clear_annots].
  rewrite index_unbordered.
  2:{ unfold annot_begin. rewrite app_assoc. apply unbordered_last. intros O. apply in_app_or in O as [O|O]; [simpl in O; intuition discriminate|].
      now apply (label_no n ">"%char L ltac:(inlit)). }
  2:{ intros O. apply Nx. unfold annot_begin in O. change #"/*<next-line-original " with (#"/*" ++ #"<next-line-original ") in O. rewrite <- app_assoc in O. now apply occurs_suffix in O. }
  set (pre := x ++ annot_begin n).
  replace (x ++ annot_begin n ++ old ++ annot_close ++ [newline] ++ new ++ y) with (pre ++ old ++ annot_close ++ [newline] ++ new ++ y) by (unfold pre; now rewrite <- app_assoc).
  replace (length x + length (annot_begin n)) with (length pre) by (unfold pre; now rewrite app_length).
  rewrite (skipn_app_exact pre) by reflexivity.
  rewrite index_unbordered; auto.
  2:{ apply unbordered_first. simpl. intuition discriminate. }
  rewrite slice_app; [|reflexivity|apply Nat.add_comm].
  replace (firstn (length x) (pre ++ old ++ annot_close ++ [newline] ++ new ++ y)) with x.
  2:{ unfold pre. rewrite <- app_assoc. symmetry. now apply firstn_app_exact. }
  set (pre2 := pre ++ old ++ annot_close).
  replace (pre ++ old ++ annot_close ++ [newline] ++ new ++ y) with (pre2 ++ newline :: new ++ y) by (unfold pre2; rewrite <- !app_assoc; reflexivity).
  replace (length old + length pre + length annot_close) with (length pre2) by (unfold pre2; rewrite !app_length; rewrite Nat.add_assoc; f_equal; apply Nat.add_comm).
  assert (NE : skipn (next_line_end (pre2 ++ newline :: new ++ y) (length pre2)) (pre2 ++ newline :: new ++ y) = y).
  { unfold next_line_end. assert (Sk1 : skipn (length pre2) (pre2 ++ newline :: new ++ y) = newline :: new ++ y) by (now apply skipn_app_exact). rewrite Sk1.
    replace (index (newline :: new ++ y) [newline]) with (Some 0) by (symmetry; apply (index_here [newline] (new ++ y))).
    rewrite Nat.add_0_r.
    assert (Sk2 : forall k, skipn (length pre2 + 1 + k) (pre2 ++ newline :: new ++ y) = skipn k (new ++ y)).
    { intros k. change (newline :: new ++ y) with ([newline] ++ new ++ y). rewrite app_assoc. rewrite <- skipn_add.
      f_equal. apply skipn_app_exact. rewrite app_length. reflexivity. }
    pose proof (Sk2 0) as Sk0. rewrite Nat.add_0_r in Sk0. rewrite Sk0. cbn [skipn].
    destruct Y as [->|(y' & ->)].
    - rewrite app_nil_r. rewrite (proj2 (index_none_iff new [newline])).
      + rewrite skipn_all2; auto.
      + intros O. apply occurs_in in O. auto.
    - change (new ++ newline :: y') with (new ++ [newline] ++ y'). rewrite index_unbordered.
      + rewrite Sk2. now apply skipn_app_exact.
      + apply (unbordered_first newline []). intros [].
      + intros O. apply occurs_in in O. auto. }
  rewrite NE. apply clear_annots_none. auto.
Qed.
