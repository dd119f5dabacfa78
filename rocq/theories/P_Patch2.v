(** * Totality of the cleaning loops; clearing the blocks of one name. *)
From Coq Require Import Ascii String List Arith Bool Lia.
From Verif Require Import M_Str M_Patch P_Str P_Patch.
Import ListNotations.
Open Scope nat_scope.

Lemma index_bound s w n : index s w = Some n -> n + length w <= length s.
Proof. intros H. apply index_sound in H as (a & b & -> & <-). rewrite !app_length. lia. Qed.
Lemma index_skip_bound i s w n : w <> [] -> index (skipn i s) w = Some n -> n + i + length w <= length s.
Proof.
  intros Nw H. apply index_bound in H. rewrite skipn_length in H. destruct w; [congruence|]. simpl in *. lia.
Qed.
Lemma next_line_end_bound content start : start <= length content -> start <= next_line_end content start <= length content.
Proof.
  intros L. unfold next_line_end. destruct (index (skipn start content) [newline]) as [f|] eqn:E; [|lia].
  apply index_skip_bound in E; [|discriminate]. simpl in E. destruct (index (skipn (start + f + 1) content) [newline]) as [g|] eqn:E2; [|lia].
  apply index_skip_bound in E2; [|discriminate]. simpl in E2. lia.
Qed.
Lemma slice_length s i j : length (slice s i j) <= j - i.
Proof. unfold slice. rewrite firstn_length. lia. Qed.
Lemma annot_step_shorter content a start close :
  a < start -> start <= close -> close + length annot_close <= length content ->
  length (firstn a content ++ slice content start close ++ skipn (next_line_end content (close + length annot_close)) content) < length content.
Proof.
  intros L1 L2 L3. pose proof (next_line_end_bound content _ L3). pose proof (slice_length content start close).
  rewrite !app_length, firstn_length, skipn_length. change (length annot_close) with 23 in *. lia.
Qed.
Lemma clean_next_line_total fuel content : length content <= fuel -> clean_next_line fuel content <> None.
Proof.
  revert content. induction fuel as [|fuel IH]; intros content L; cbn [clean_next_line].
  - destruct content; [simpl; discriminate|simpl in L; lia].
  - destruct (index content annot_open) as [a|] eqn:E; [|discriminate]. pose proof (index_bound _ _ _ E).
    destruct (index (skipn (a + length annot_open) content) #">") as [n|] eqn:E1; [|discriminate]. apply index_skip_bound in E1; [|discriminate].
    destruct (index (skipn (n + a + length annot_open + 1) content) annot_close) as [c|] eqn:E2; [|discriminate]. apply index_skip_bound in E2; [|discriminate].
    apply IH. pose proof (annot_step_shorter content a (n + a + length annot_open + 1) (c + (n + a + length annot_open + 1)) ltac:(lia) ltac:(lia) ltac:(lia)). lia.
Qed.
Lemma find_marker_bound content i mb me label b e : mb <> [] -> me <> [] -> find_marker content i mb me label = Some (b, e) -> i <= b /\ b < e /\ e <= length content.
Proof.
  intros N1 N2. unfold find_marker. destruct (index (skipn i content) (mb ++ label)) as [s|] eqn:E; [|discriminate].
  destruct (index (skipn (s + i + length mb + length label) content) me) as [x|] eqn:E2; [|discriminate]. intros H. injection H as <- <-.
  apply index_skip_bound in E; [|destruct mb; [congruence|discriminate]]. apply index_skip_bound in E2; auto. destruct me; [congruence|]. simpl in *. lia.
Qed.
Lemma clean_markers_total fuel content i : length content - i <= fuel -> clean_markers fuel content i <> None.
Proof.
  revert i. induction fuel as [|fuel IH]; intros i L; cbn [clean_markers].
  - destruct (Nat.leb_spec (length content) i); [discriminate|lia].
  - destruct (Nat.leb_spec (length content) i); [discriminate|]. unfold find_start_end.
    destruct (find_marker content i #"/*<begin" #">*/" []) as [[b be]|] eqn:E; [|discriminate]. apply find_marker_bound in E; try discriminate.
    match goal with |- context [find_marker content be ?x ?y ?z] => destruct (find_marker content be x y z) as [[e ee]|] eqn:E2 end; [|discriminate].
    apply find_marker_bound in E2; try discriminate. specialize (IH ee ltac:(lia)). destruct (clean_markers fuel content ee); [discriminate|congruence].
Qed.
(** CleanPatch always ends. *)
Lemma clean_patch_total content : clean_patch content <> None.
Proof.
  unfold clean_patch. pose proof (clean_next_line_total (length content) content (le_n _)). destruct (clean_next_line (length content) content) as [c|]; [|congruence].
  apply clean_markers_total. lia.
Qed.
Lemma clear_annots_total fuel name content : length content <= fuel -> clear_annots fuel name content <> None.
Proof.
  revert content. induction fuel as [|fuel IH]; intros content L; cbn [clear_annots].
  - destruct content; [simpl; discriminate|simpl in L; lia].
  - destruct (index content (annot_begin name)) as [a|] eqn:E; [|discriminate]. pose proof (index_bound _ _ _ E).
    destruct (index (skipn (a + length (annot_begin name)) content) annot_close) as [c|] eqn:E2; [|discriminate]. apply index_skip_bound in E2; [|discriminate].
    apply IH. assert (0 < length (annot_begin name)) by (unfold annot_begin; simpl; lia).
    pose proof (annot_step_shorter content a (a + length (annot_begin name)) (c + (a + length (annot_begin name))) ltac:(lia) ltac:(lia) ltac:(lia)). lia.
Qed.
Lemma extract_old_length c : length (extract_old c) <= length c.
Proof.
  unfold extract_old. destruct (index c #"/*old:"); [|simpl; lia]. destruct (index (skipn _ c) #"*/") eqn:E; [|simpl; lia].
  apply index_skip_bound in E; [|discriminate]. match goal with |- context [slice ?a ?b ?d] => pose proof (slice_length a b d) end. lia.
Qed.
Lemma clear_blocks_total fuel name content : length content <= fuel -> clear_blocks fuel name content <> None.
Proof.
  revert content. induction fuel as [|fuel IH]; intros content L; cbn [clear_blocks].
  - destruct content; [simpl; discriminate|simpl in L; lia].
  - destruct (index content (mark_begin name)) as [b|] eqn:E; [|discriminate]. apply index_bound in E.
    destruct (index (skipn b content) #"*/") as [x|] eqn:E1; [|discriminate]. apply index_skip_bound in E1; [|discriminate].
    destruct (index (skipn (x + b + 2) content) (mark_end name)) as [y|] eqn:E2; [|discriminate]. apply index_skip_bound in E2; [|discriminate].
    apply IH. pose proof (extract_old_length (slice content (x + b + 2) (y + (x + b + 2)))). pose proof (slice_length content (x + b + 2) (y + (x + b + 2))).
    rewrite !app_length, firstn_length, skipn_length. assert (0 < length (mark_end name)) by (unfold mark_end; simpl; lia). lia.
Qed.
(** clearPatch always ends. *)
Lemma clear_patch_total content name : clear_patch content name <> None.
Proof.
  unfold clear_patch. pose proof (clear_annots_total (length content) name content (le_n _)). destruct (clear_annots (length content) name content) as [c|]; [|congruence].
  apply clear_blocks_total. lia.
Qed.

(** ** Clearing the blocks of one name *)
Definition blk_named (n : bytes) (b : blk) : Prop :=
  k_label b = n /\ ~ occurs (#"/*<end " ++ n ++ #">") (k_between b) /\ extract_old (k_between b) = k_old b.
Lemma mark_word kw n : ~ In ">"%char kw -> ~ In ">"%char n -> unbordered (kw ++ n ++ #">").
Proof. intros H1 H2. rewrite app_assoc. apply unbordered_last. intros I. apply in_app_or in I as [I|I]; auto. Qed.
Lemma star_slash_first n rest : ~ In "*"%char n -> index (mark_begin n ++ #"*/" ++ rest) #"*/" = Some (length (mark_begin n)).
Proof.
  intros N. apply index_unbordered.
  - apply unbordered_first. simpl. intuition discriminate.
  - unfold mark_begin. change (#"/*<begin " ++ n ++ #">") with (#"/*" ++ "<"%char :: (#"begin " ++ n ++ #">")).
    apply not_barrier; [simpl; intuition discriminate|discriminate|apply index_none_iff; reflexivity|].
    intros O. apply occurs_in in O. apply in_app_or in O as [O|O]; [simpl in O; intuition discriminate|]. apply in_app_or in O as [O|O]; [auto|]. simpl in O. intuition discriminate.
Qed.
Lemma clear_blocks_doc n l : forall r fuel, label_ok n -> Forall (fun p => blk_named n (fst p)) l ->
  ~ occurs (mark_begin n) (origin (r, l)) -> length l <= fuel ->
  clear_blocks fuel n (render (r, l)) = Some (origin (r, l)).
Proof.
  induction l as [|[b r'] l IH]; intros r fuel Ln F N Lf.
  - unfold render, origin in *. unfold render_list, origin_list in *. simpl in *. rewrite app_nil_r in *.
    destruct fuel; simpl; rewrite (proj2 (index_none_iff r (mark_begin n)) N); reflexivity.
  - inversion F as [|q l' (En & Ne & Eo) F' E]; subst q l'. cbn [fst] in *. simpl in Lf. destruct fuel as [|fuel]; [lia|].
    pose proof (label_no n ">"%char Ln ltac:(inlit)) as G1. pose proof (label_no n "*"%char Ln ltac:(inlit)) as G2. pose proof (label_no n "/"%char Ln ltac:(inlit)) as G3.
    rewrite render_cons. rewrite origin_cons in N |- *.
    assert (Rb : render_blk b = mark_begin n ++ #"*/" ++ k_between b ++ mark_end n).
    { unfold render_blk, begin_mark, mark_begin, end_mark, mark_end. rewrite En. rewrite <- !app_assoc. reflexivity. }
    rewrite Rb. set (rest := render (r', l)).
    replace (r ++ (mark_begin n ++ #"*/" ++ k_between b ++ mark_end n) ++ rest) with (r ++ mark_begin n ++ #"*/" ++ k_between b ++ mark_end n ++ rest) by (now rewrite <- !app_assoc).
    cbn [clear_blocks].
    rewrite index_unbordered; [|apply mark_word; [simpl; intuition discriminate|auto]|intros O; apply N; now apply occurs_app_l].
    rewrite (skipn_app_exact r) by reflexivity. rewrite star_slash_first by auto.
    set (be := length (mark_begin n) + length r + 2).
    assert (Sk : skipn be (r ++ mark_begin n ++ #"*/" ++ k_between b ++ mark_end n ++ rest) = k_between b ++ mark_end n ++ rest).
    { replace (r ++ mark_begin n ++ #"*/" ++ k_between b ++ mark_end n ++ rest) with ((r ++ mark_begin n ++ #"*/") ++ k_between b ++ mark_end n ++ rest) by (now rewrite <- !app_assoc).
      apply skipn_app_exact. rewrite !app_length. unfold be. simpl. lia. }
    rewrite Sk.
    assert (Ix : index (k_between b ++ mark_end n ++ rest) (mark_end n) = Some (length (k_between b))).
    { assert (Em : mark_end n = (#"/*<end " ++ n ++ #">") ++ #"*/") by (unfold mark_end; rewrite <- !app_assoc; reflexivity).
      rewrite Em. apply index_longer; auto. apply mark_word; auto. simpl. intuition discriminate. }
    rewrite Ix.
    assert (Sl : slice (r ++ mark_begin n ++ #"*/" ++ k_between b ++ mark_end n ++ rest) be (length (k_between b) + be) = k_between b).
    { replace (r ++ mark_begin n ++ #"*/" ++ k_between b ++ mark_end n ++ rest) with ((r ++ mark_begin n ++ #"*/") ++ k_between b ++ mark_end n ++ rest) by (now rewrite <- !app_assoc).
      apply slice_app; rewrite !app_length; unfold be; simpl; lia. }
    rewrite Sl, Eo, firstn_app_exact by reflexivity.
    replace (skipn (length (k_between b) + be + length (mark_end n)) (r ++ mark_begin n ++ #"*/" ++ k_between b ++ mark_end n ++ rest)) with rest.
    2:{ replace (r ++ mark_begin n ++ #"*/" ++ k_between b ++ mark_end n ++ rest) with ((r ++ mark_begin n ++ #"*/" ++ k_between b ++ mark_end n) ++ rest) by (now rewrite <- !app_assoc).
        rewrite skipn_app_exact; auto. rewrite !app_length. unfold be. simpl. lia. }
    unfold rest. replace (r ++ k_old b ++ render (r', l)) with (render (r ++ k_old b ++ r', l)).
    + rewrite IH; auto; [|intros O; apply N; unfold origin in O |- *; simpl in O; now rewrite <- !app_assoc in O|lia].
      f_equal. unfold origin. simpl. now rewrite <- !app_assoc.
    + unfold render. simpl. now rewrite <- !app_assoc.
Qed.
