(** * Proofs on marked patches. *)
From Coq Require Import Ascii String List Arith Bool Lia.
From Verif Require Import M_Str M_Patch P_Str.
Import ListNotations.
Open Scope nat_scope.

Definition begin_mark (label : bytes) : bytes := #"/*<begin " ++ label ++ #">*/".
Definition end_mark (label : bytes) : bytes := #"/*<end " ++ label ++ #">*/".
(** Labels: no slash, star or angle bracket. *)
Definition label_ok (l : bytes) : Prop := Forall (fun c => ~ In c #"/*<>") l.

(** A marked text: pieces of original text with marked blocks between them. *)
Record blk := { k_label : bytes; k_old : bytes; k_between : bytes }.
Definition doc := (bytes * list (blk * bytes))%type.
Definition render_blk (b : blk) : bytes := begin_mark (k_label b) ++ k_between b ++ end_mark (k_label b).
Definition render_list (l : list (blk * bytes)) : bytes := concat (map (fun p => render_blk (fst p) ++ snd p) l).
Definition origin_list (l : list (blk * bytes)) : bytes := concat (map (fun p => k_old (fst p) ++ snd p) l).
Definition render (d : doc) : bytes := fst d ++ render_list (snd d).
Definition origin (d : doc) : bytes := fst d ++ origin_list (snd d).

Lemma render_cons r b r' l : render (r, (b, r') :: l) = r ++ render_blk b ++ render (r', l).
Proof. unfold render, render_list. simpl. now rewrite <- app_assoc. Qed.
Lemma origin_cons r b r' l : origin (r, (b, r') :: l) = r ++ k_old b ++ origin (r', l).
Proof. unfold origin, origin_list. simpl. now rewrite <- app_assoc. Qed.

Lemma label_no l c : label_ok l -> In c #"/*<>" -> ~ In c l.
Proof. intros H I J. unfold label_ok in H. rewrite Forall_forall in H. now apply (H c J). Qed.
Ltac inlit := simpl; tauto.

(** ** CleanPatch *)
Definition blk_ok (b : blk) : Prop :=
  label_ok (k_label b) /\ ~ occurs #"/*<end" (k_between b) /\ extract_old (k_between b) = k_old b.

Lemma begin_word : unbordered #"/*<begin".
Proof. apply unbordered_first. simpl. intuition discriminate. Qed.

Lemma find_begin pre r label rest : ~ occurs #"/*<begin" r -> label_ok label ->
  find_marker (pre ++ r ++ begin_mark label ++ rest) (length pre) #"/*<begin" #">*/" [] =
  Some (length pre + length r, length pre + length r + length (begin_mark label)).
Proof.
  intros N L. unfold find_marker. rewrite skipn_app_exact by reflexivity. rewrite app_nil_r.
  unfold begin_mark. change #"/*<begin " with (#"/*<begin" ++ #" "). rewrite <- !app_assoc.
  rewrite index_unbordered by (auto using begin_word).
  set (s := pre ++ r ++ #"/*<begin" ++ #" " ++ label ++ #">*/" ++ rest).
  assert (E : s = (pre ++ r ++ #"/*<begin") ++ (#" " ++ label) ++ #">*/" ++ rest) by (unfold s; now rewrite <- !app_assoc).
  rewrite E. rewrite (skipn_app_exact (pre ++ r ++ #"/*<begin")).
  - rewrite index_unbordered.
    + f_equal. f_equal; [lia|]. rewrite ?app_length; simpl; rewrite ?app_length; simpl; lia.
    + apply unbordered_first. simpl. intuition discriminate.
    + intros O. apply occurs_in in O. simpl in O. destruct O as [O|O]; [discriminate|]. apply (label_no label ">"%char L); auto. simpl. tauto.
  - rewrite !app_length. simpl. lia.
Qed.
Lemma find_end pre bt label rest : ~ occurs #"/*<end" bt -> label_ok label ->
  find_marker (pre ++ bt ++ end_mark label ++ rest) (length pre) #"/*<end" #">*/" (#" " ++ label) =
  Some (length pre + length bt, length pre + length bt + length (end_mark label)).
Proof.
  intros N L. unfold find_marker. rewrite skipn_app_exact by reflexivity.
  unfold end_mark. change #"/*<end " with (#"/*<end" ++ #" ").
  replace (bt ++ ((#"/*<end" ++ #" ") ++ label ++ #">*/") ++ rest) with (bt ++ (#"/*<end" ++ #" " ++ label) ++ #">*/" ++ rest) by (now rewrite <- !app_assoc).
  rewrite index_unbordered.
  - set (s := pre ++ bt ++ (#"/*<end" ++ #" " ++ label) ++ #">*/" ++ rest).
    assert (E : s = (pre ++ bt ++ #"/*<end" ++ #" " ++ label) ++ #">*/" ++ rest) by (unfold s; now rewrite <- !app_assoc).
    rewrite E. rewrite (skipn_app_exact (pre ++ bt ++ #"/*<end" ++ #" " ++ label)).
    + rewrite index_here. f_equal. f_equal; [lia|]. rewrite ?app_length; simpl; rewrite ?app_length; simpl; lia.
    + rewrite !app_length. simpl. lia.
  - apply unbordered_first. intros I. simpl in I. repeat (destruct I as [I|I]; [discriminate|]). apply (label_no label "/"%char L); auto. simpl. tauto.
  - intros O. apply N. now apply occurs_prefix in O.
Qed.
Lemma find_blk pre r b rest : ~ occurs #"/*<begin" r -> blk_ok b ->
  find_start_end (pre ++ r ++ render_blk b ++ rest) (length pre) =
  Some (length pre + length r, length pre + length r + length (begin_mark (k_label b)),
        length pre + length r + length (begin_mark (k_label b)) + length (k_between b),
        length pre + length r + length (render_blk b)).
Proof.
  intros N (L & Ne & _). unfold find_start_end, render_blk. rewrite <- app_assoc. rewrite find_begin by auto.
  set (B := begin_mark (k_label b)). set (K := k_between b). set (E := end_mark (k_label b)).
  assert (Lab : slice (pre ++ r ++ B ++ (K ++ E) ++ rest) (length pre + length r + length #"/*<begin")
                 (length pre + length r + length B - length #">*/") = #" " ++ k_label b).
  { assert (Eq : pre ++ r ++ B ++ (K ++ E) ++ rest = (pre ++ r ++ #"/*<begin") ++ (#" " ++ k_label b) ++ (#">*/" ++ (K ++ E) ++ rest)).
    { unfold B, begin_mark. rewrite <- !app_assoc. reflexivity. }
    rewrite Eq. apply slice_app.
    - rewrite !app_length. simpl. lia.
    - unfold B, begin_mark. rewrite ?app_length; simpl; rewrite ?app_length; simpl; lia. }
  rewrite Lab.
  replace (pre ++ r ++ B ++ (K ++ E) ++ rest) with ((pre ++ r ++ B) ++ K ++ E ++ rest) by (now rewrite <- !app_assoc).
  replace (length pre + length r + length B) with (length (pre ++ r ++ B)) by (rewrite !app_length; lia).
  unfold E. pose proof (find_end (pre ++ r ++ B) K (k_label b) rest Ne L) as Q. rewrite Q. apply f_equal.
  repeat match goal with |- (_, _) = (_, _) => apply f_equal2 end; rewrite ?app_length; fold B K; lia.
Qed.

Lemma clean_markers_doc l r pre fuel :
  Forall (fun p => blk_ok (fst p)) l -> ~ occurs #"/*<begin" (origin (r, l)) -> length l <= fuel ->
  clean_markers fuel (pre ++ render (r, l)) (length pre) = Some (origin (r, l)).
Proof.
  revert r pre fuel. induction l as [|[b r'] l IH]; intros r pre fuel F N Lf.
  - unfold render, origin in *. unfold render_list, origin_list in *. simpl in *. rewrite app_nil_r in *.
    destruct fuel; simpl; (destruct (Nat.leb_spec (length (pre ++ r)) (length pre)) as [H|H];
      [rewrite app_length in H; destruct r; [auto|simpl in H; lia]|]);
      unfold find_start_end, find_marker; rewrite skipn_app_exact by reflexivity; rewrite app_nil_r;
      rewrite (proj2 (index_none_iff r #"/*<begin") N); reflexivity.
  - inversion F as [|x y Hb F' E]; subst. simpl in Hb, Lf. rewrite render_cons. rewrite origin_cons in N |- *.
    destruct fuel as [|fuel]; [lia|]. cbn [clean_markers].
    destruct (Nat.leb_spec (length (pre ++ r ++ render_blk b ++ render (r', l))) (length pre)) as [H|H].
    { unfold render_blk, begin_mark in H. rewrite !app_length in H. simpl in H. lia. }
    rewrite find_blk; [|intros O; apply N; now apply occurs_app_l|auto].
    assert (IH' := IH r' (pre ++ r ++ render_blk b) fuel F').
    replace ((pre ++ r ++ render_blk b) ++ render (r', l)) with (pre ++ r ++ render_blk b ++ render (r', l)) in IH' by (now rewrite <- !app_assoc).
    replace (length (pre ++ r ++ render_blk b)) with (length pre + length r + length (render_blk b)) in IH' by (rewrite !app_length; lia).
    rewrite IH'; [|intros O; apply N; do 2 apply occurs_app_r; auto|lia].
    cbn [option_map]. f_equal. f_equal; [apply slice_app; auto|]. f_equal. destruct Hb as (_ & _ & <-). f_equal.
    replace (pre ++ r ++ render_blk b ++ render (r', l)) with ((pre ++ r ++ begin_mark (k_label b)) ++ k_between b ++ end_mark (k_label b) ++ render (r', l)).
    + apply slice_app; rewrite !app_length; lia.
    + unfold render_blk. now rewrite <- !app_assoc.
Qed.

(** Words that are not in a marked text. *)
Definition next_word (w : bytes) : Prop := exists w', w = "<"%char :: "n"%char :: w' /\ ~ In "/"%char w /\ ~ In "*"%char w.
Lemma mark_free w e kw label : next_word w -> label_ok label -> e <> "n"%char -> ~ In "<"%char (e :: kw) ->
  ~ occurs w (#"*<" ++ (e :: kw) ++ label ++ #">*").
Proof.
  intros (w' & E & N1 & N2) L He Hk. pose proof (label_no label "<"%char L ltac:(inlit)) as Hl.
  change (#"*<" ++ (e :: kw) ++ label ++ #">*") with ([] ++ "*"%char :: ("<"%char :: e :: kw ++ label ++ #">*")).
  apply not_barrier; auto; [rewrite E; discriminate|apply occurs_nil_left; rewrite E; discriminate|].
  replace ("<"%char :: e :: kw ++ label ++ #">*") with (("<"%char :: e :: kw ++ label ++ #">") ++ "*"%char :: []).
  2:{ simpl. do 2 f_equal. rewrite <- !app_assoc. reflexivity. }
  apply not_barrier; auto; [rewrite E; discriminate| |apply occurs_nil_left; rewrite E; discriminate].
  rewrite E. apply not_occurs_head; auto. simpl. intros [H|H]; [apply Hk; now left|].
  apply in_app_or in H as [H|H]; [apply Hk; now right|]. apply in_app_or in H as [H|H]; [auto|]. simpl in H. intuition discriminate.
Qed.
Lemma blk_free w b x y : next_word w -> label_ok (k_label b) -> ~ occurs w (k_between b) -> ~ occurs w x -> ~ occurs w y ->
  ~ occurs w (x ++ render_blk b ++ y).
Proof.
  intros W L Hb Hx Hy. pose proof W as (w' & E & N1 & N2). assert (NE : w <> []) by (rewrite E; discriminate).
  assert (Q : x ++ render_blk b ++ y =
    x ++ "/"%char :: ((#"*<" ++ ("b"%char :: #"egin ") ++ k_label b ++ #">*") ++ "/"%char ::
      (k_between b ++ "/"%char :: ((#"*<" ++ ("e"%char :: #"nd ") ++ k_label b ++ #">*") ++ "/"%char :: y)))).
  { unfold render_blk, begin_mark, end_mark. rewrite <- !app_assoc. simpl. now rewrite <- ?app_assoc. }
  rewrite Q. apply not_barrier; auto. apply not_barrier; auto.
  - apply mark_free; auto; [discriminate|simpl; intuition discriminate].
  - apply not_barrier; auto. apply not_barrier; auto. apply mark_free; auto; [discriminate|simpl; intuition discriminate].
Qed.
Lemma render_free w r l : next_word w -> Forall (fun p => label_ok (k_label (fst p)) /\ ~ occurs w (k_between (fst p))) l ->
  ~ occurs w (origin (r, l)) -> ~ occurs w (render (r, l)).
Proof.
  intros W F. revert r. induction F as [|[b r'] l [L Hb] F IH]; intros r N.
  - exact N.
  - rewrite render_cons. rewrite origin_cons in N. simpl in L, Hb. apply blk_free; auto.
    + intros O. apply N. now apply occurs_app_l.
    + apply IH. intros O. apply N. do 2 apply occurs_app_r. auto.
Qed.
Lemma next_word_open : next_word #"<next-line-original ".
Proof. eexists. split; [reflexivity|]. split; simpl; intuition discriminate. Qed.

Lemma clean_no_annot content fuel : ~ occurs annot_open content -> clean_next_line fuel content = Some content.
Proof. intros N. destruct fuel; simpl; rewrite (proj2 (index_none_iff _ _) N); reflexivity. Qed.
Lemma blocks_length l : length l <= length (render_list l).
Proof.
  induction l as [|[b r] l IH]; [apply le_n|]. cbn [length]. change (render_list ((b, r) :: l)) with ((render_blk b ++ r) ++ render_list l).
  assert (1 <= length (render_blk b)) by (unfold render_blk, begin_mark; simpl; lia). rewrite !app_length. lia.
Qed.
Lemma clean_doc d :
  Forall (fun p => blk_ok (fst p) /\ ~ occurs #"<next-line-original " (k_between (fst p))) (snd d) ->
  ~ occurs #"/*<begin" (origin d) -> ~ occurs #"<next-line-original " (origin d) ->
  clean_patch (render d) = Some (origin d).
Proof.
  destruct d as [r l]. cbn [fst snd]. intros F N1 N2. unfold clean_patch. rewrite clean_no_annot.
  - apply (clean_markers_doc l r []).
    + eapply Forall_impl; [|exact F]. intros a [H _]. exact H.
    + auto.
    + unfold render. simpl. rewrite app_length. pose proof (blocks_length l). lia.
  - change annot_open with (#"/*" ++ #"<next-line-original "). intros O. apply occurs_suffix in O. revert O. apply render_free; auto using next_word_open.
    eapply Forall_impl; [|exact F]. intros a [(L & _) H]. auto.
Qed.
