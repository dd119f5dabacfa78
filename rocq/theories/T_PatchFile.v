(** * Patch files are read as written (C89) *)
From Coq Require Import Ascii String List Arith Bool Lia.
From Verif Require Import M_Str M_Module M_Patch M_PatchFile.
Import ListNotations.
Open Scope nat_scope. Open Scope list_scope.

(** ** Specification *)
Definition holds (s p : bytes) : Prop := exists a b, s = a ++ p ++ b.
Definition blank (c : ascii) : Prop := c = " "%char \/ c = "009"%char.
Definition trail (c : ascii) : Prop := blank c \/ c = "013"%char.
Definition white (c : ascii) : Prop := trail c \/ c = "010"%char \/ c = "011"%char \/ c = "012"%char.
Definition begins_without (P : ascii -> Prop) (s : bytes) : Prop := forall c r, s = c :: r -> ~ P c.
Definition ends_without (P : ascii -> Prop) (s : bytes) : Prop := forall r c, s = r ++ [c] -> ~ P c.
(** The separator [p] comes first after [a], whatever follows. *)
Definition first_after (a p : bytes) : Prop := ~ holds (a ++ removelast p) p.
Definition goto_target (t : bytes) : Prop :=
  t = #"opening {" \/ t = #"closing }" \/ exists n, t = #"field " ++ n \/ t = #"struct " ++ n \/ t = #"interface " ++ n \/ t = #"func " ++ n.
(** [x] is [s] without the white space at both ends. *)
Definition stripped (s x : bytes) : Prop :=
  exists v w, s = v ++ x ++ w /\ Forall white v /\ Forall white w /\ begins_without white x /\ ends_without white x.
(** The target of a copy may be followed by "append to file end", which says what happens anyway. *)
Definition copy_target (t b : bytes) : Prop := t = b ++ #" append to file end" \/ t = b /\ forall r, t <> r ++ #" append to file end".
(** The text of a command: its name, a space, its text as it is. *)
Inductive says : bytes -> command -> Prop :=
| says_goto t : goto_target t -> says (#"goto " ++ t) (Goto t)
| says_match t : says (#"match " ++ t) (Match t)
| says_match_empty : says #"match" (Match [])
| says_find t : says (#"find_for_replace " ++ t) (FindForReplace t)
| says_find_empty : says #"find_for_replace" (FindForReplace [])
| says_before t : says (#"insert_before " ++ t) (InsertBefore t)
| says_after t : says (#"insert_after " ++ t) (InsertAfter t)
| says_after_line t : says (#"insert_after_line " ++ t) (InsertAfterLine t)
| says_replace t : says (#"replace " ++ t) (ReplaceWith t)
| says_newline : says #"newline" Newline
| says_newline_text t : says (#"newline " ++ t) Newline
| says_copy r a t b : stripped r (a ++ #" as " ++ t) -> first_after a #" as " -> copy_target t b -> says (#"copy_func " ++ r) (CopyFunc a b)
| says_directive r a b : stripped r (a ++ #" with " ++ b) -> first_after a #" with " -> says (#"replace_directive " ++ r) (ReplaceDirective a b).
(** Lines: indented and followed by blanks as one likes. *)
Definition line_says (l : bytes) (c : command) : Prop := exists i t w, l = i ++ t ++ w /\ Forall blank i /\ Forall trail w /\ ends_without trail t /\ says t c.
Definition ignored (l : bytes) : Prop := Forall trail l \/ exists r, l = #"#" ++ r.
Inductive lines_say : list bytes -> list command -> Prop :=
| say_nil : lines_say [] []
| say_ignored l ls cs : ignored l -> lines_say ls cs -> lines_say (l :: ls) cs
| say_command l ls c cs : line_says l c -> lines_say ls cs -> lines_say (l :: ls) (c :: cs).
(** One block: its tag, with a name (or none), its lines, the closing tag. *)
Definition block_text (tag : bytes) (ls : list bytes) : bytes := #"<patch" ++ tag ++ #">" ++ join [newline] ls ++ #"</patch>".
Definition named (tag name : bytes) : Prop := stripped tag name /\ ~ In ">"%char tag.
Definition lines_ok (ls : list bytes) : Prop := ls <> [] /\ Forall (fun l => ~ In newline l) ls /\ ~ holds (join [newline] ls) #"</patch>".
(** A file: blocks, with any text around them. *)
Inductive doc : bytes -> list block -> Prop :=
| doc_end t : ~ holds t #"<patch" -> doc t []
| doc_block t tag ls rest name cs bs : ~ holds t #"<patch" -> named tag name -> lines_ok ls -> lines_say ls cs -> doc rest bs ->
    doc (t ++ block_text tag ls ++ rest) ({| b_name := name; b_commands := cs |} :: bs).

(** What is an error: a line whose first word is no command, one without the text that it needs, an unknown target, a copy or a directive without its keyword. *)
Definition command_names : list bytes :=
  [#"goto"; #"match"; #"find_for_replace"; #"insert_before"; #"insert_after"; #"insert_after_line"; #"replace"; #"newline"; #"copy_func"; #"replace_directive"].
Definition needs_text : list bytes := [#"goto"; #"insert_before"; #"insert_after"; #"insert_after_line"; #"replace"; #"copy_func"; #"replace_directive"].
Inductive wrong : bytes -> Prop :=
| wrong_word w r : ~ In " "%char w -> ~ In w command_names -> r = [] \/ (exists t, r = " "%char :: t) -> wrong (w ++ r)
| wrong_no_text w : In w needs_text -> wrong w
| wrong_target t : ~ goto_target t -> wrong (#"goto " ++ t)
| wrong_copy r x : stripped r x -> ~ holds x #" as " -> wrong (#"copy_func " ++ r)
| wrong_directive r x : stripped r x -> ~ holds x #" with " -> wrong (#"replace_directive " ++ r).
Definition line_wrong (l : bytes) : Prop :=
  ~ ignored l /\ exists i t w, l = i ++ t ++ w /\ Forall blank i /\ Forall trail w /\ begins_without blank t /\ ends_without trail t /\ wrong t.
(** A file with an error: a wrong line in a block, a tag that does not end, a block that does not end, or such an error further on. *)
Inductive broken : bytes -> Prop :=
| broken_tag t r : ~ holds t #"<patch" -> ~ In ">"%char r -> broken (t ++ #"<patch" ++ r)
| broken_block t tag r : ~ holds t #"<patch" -> ~ In ">"%char tag -> ~ holds r #"</patch>" -> broken (t ++ #"<patch" ++ tag ++ #">" ++ r)
| broken_line t tag ls rest l : ~ holds t #"<patch" -> ~ In ">"%char tag -> lines_ok ls -> In l ls -> line_wrong l -> broken (t ++ block_text tag ls ++ rest)
| broken_later t tag ls rest : ~ holds t #"<patch" -> ~ In ">"%char tag -> lines_ok ls -> broken rest -> broken (t ++ block_text tag ls ++ rest).

(** ** Proofs *)
Lemma removelast_length {A} (p : list A) : length (removelast p) = length p - 1.
Proof. induction p as [|c p IH]; [reflexivity|]. destruct p; [reflexivity|]. cbn [removelast length] in *. rewrite IH. lia. Qed.
Lemma firstn_removelast {A} (p : list A) : firstn (length p - 1) p = removelast p.
Proof. induction p as [|c p IH]; [reflexivity|]. destruct p as [|d p]; [reflexivity|]. cbn [removelast length] in *. replace (S (S (length p)) - 1) with (S (S (length p) - 1)) by lia. cbn [firstn]. now rewrite IH. Qed.
Lemma index_first_after a p r : p <> [] -> first_after a p -> index (a ++ p ++ r) p = Some (length a).
Proof.
  intros Np F. destruct (index (a ++ p ++ r) p) as [n|] eqn:I; [|exfalso; eapply index_none; eauto]. f_equal.
  pose proof (index_first _ _ _ I a r eq_refl) as L. destruct (index_sound _ _ _ I) as (x & y & E & Lx).
  destruct (Nat.lt_ge_cases n (length a)) as [Lt|]; [|lia]. exfalso. apply F.
  assert (Pp : 0 < length p) by (destruct p; [congruence|cbn; lia]).
  assert (Q : firstn (length a + (length p - 1)) (a ++ p ++ r) = a ++ removelast p).
  { rewrite firstn_app, firstn_all2 by lia. replace (length a + (length p - 1) - length a) with (length p - 1) by lia. f_equal. rewrite firstn_app. replace (length p - 1 - length p) with 0 by lia. rewrite firstn_O, app_nil_r. apply firstn_removelast. }
  exists x, (firstn (length a + (length p - 1) - length x - length p) y). rewrite <- Q, E, firstn_app, (firstn_all2 x) by lia. f_equal. rewrite firstn_app, (firstn_all2 p) by lia. reflexivity.
Qed.
Lemma index_some_iff s p n : p <> [] -> (index s p = Some n <-> exists a b, s = a ++ p ++ b /\ length a = n /\ first_after a p).
Proof.
  intros Np. split.
  - intros I. destruct (index_sound _ _ _ I) as (a & b & E & L). exists a, b. repeat split; auto. intros (x & y & Q).
    pose proof (app_removelast_last " "%char Np) as Sp. set (z := last p " "%char) in *.
    assert (E' : s = x ++ p ++ (y ++ z :: b)). { rewrite E. rewrite Sp at 1. rewrite <- !app_assoc. cbn [app]. rewrite (app_assoc a), Q, <- !app_assoc. reflexivity. }
    pose proof (index_first _ _ _ I _ _ E') as Le. pose proof (f_equal (@length ascii) Q) as LQ. rewrite !app_length, removelast_length in LQ. assert (0 < length p) by (destruct p; [congruence|cbn; lia]). lia.
  - intros (a & b & -> & <- & F). now apply index_first_after.
Qed.
Lemma index_none_iff s p : index s p = None <-> ~ holds s p.
Proof.
  split.
  - intros I (a & b & E). exact (index_none _ _ I a b E).
  - intros N. destruct (index s p) as [n|] eqn:I; [|reflexivity]. destruct (index_sound _ _ _ I) as (a & b & E & _). destruct N. exists a, b. exact E.
Qed.
(** A separator whose first byte does not occur again in it. *)
Lemma first_after_simple a c p : ~ In c p -> ~ holds a (c :: p) -> first_after a (c :: p).
Proof.
  intros N H (x & y & E). destruct p as [|d p].
  - apply H. exists x, y. cbn [removelast] in E. rewrite app_nil_r in E. exact E.
  - change (removelast (c :: d :: p)) with (c :: removelast (d :: p)) in E. assert (Lr : length (removelast (d :: p)) = length p). { clear. revert d. induction p as [|e p IH]; intros d; [reflexivity|]. cbn [removelast length] in *. now rewrite IH. }
    assert (Len : length x + length (c :: d :: p) + length y = length a + S (length p)). { pose proof (f_equal (@length ascii) E) as L. rewrite !app_length in L. cbn [length] in L. rewrite Lr in L. cbn [length]. lia. }
    cbn [length] in Len. destruct (Nat.le_gt_cases (length x + S (S (length p))) (length a)) as [Le|Gt].
    + apply H. exists x, (firstn (length a - length x - length (c :: d :: p)) y). pose proof (f_equal (firstn (length a)) E) as F. rewrite firstn_app, Nat.sub_diag, firstn_O, app_nil_r, firstn_all in F.
      etransitivity; [exact F|]. rewrite firstn_app, (firstn_all2 x) by lia. f_equal. rewrite firstn_app, (firstn_all2 (c :: d :: p)) by (cbn [length]; lia). reflexivity.
    + assert (X : nth (length a) (a ++ c :: removelast (d :: p)) c = c) by (rewrite app_nth2, Nat.sub_diag by lia; reflexivity).
      assert (Lt : length x < length a) by lia. set (k := length a - length x - 1).
      assert (Y : nth (length a) (x ++ (c :: d :: p) ++ y) c = nth k (d :: p) c).
      { rewrite app_nth2 by lia. replace (length a - length x) with (S k) by (unfold k; lia). change (nth (S k) ((c :: d :: p) ++ y) c) with (nth k ((d :: p) ++ y) c). apply app_nth1. cbn [length]. unfold k. lia. }
      (* the byte at that place may be the default: use one that is in the list *)
      apply N. rewrite E in X. assert (Z : nth k (d :: p) c = c) by congruence. assert (Kp : k < length (d :: p)) by (cbn [length]; unfold k; lia).
      rewrite <- Z. now apply nth_In.
Qed.
Lemma first_after_holds a p : first_after a p -> ~ holds a p.
Proof. intros F (x & y & ->). apply F. exists x, (y ++ removelast p). now rewrite <- !app_assoc. Qed.
Lemma blank_iff c : is_blank c = true <-> blank c.
Proof. unfold is_blank, blank. rewrite orb_true_iff, !eqc_eq. tauto. Qed.
Lemma trail_iff c : is_trail c = true <-> trail c.
Proof. unfold is_trail, trail. rewrite orb_true_iff, blank_iff, eqc_eq. tauto. Qed.
Lemma white_iff c : is_space c = true <-> white c.
Proof.
  unfold is_space, white, trail, blank. split.
  - intros H. destruct c as [[] [] [] [] [] [] [] []]; vm_compute in H; try discriminate H; auto 7.
  - intros H. repeat (destruct H as [H|H]); subst c; reflexivity.
Qed.
Section Trim.
Variables (p : ascii -> bool) (P : ascii -> Prop).
Hypothesis pP : forall c, p c = true <-> P c.
Lemma trim_left_skip w s : Forall P w -> trim_left_by p (w ++ s) = trim_left_by p s.
Proof. induction 1 as [|c w H F IH]; [reflexivity|]. cbn. apply pP in H. now rewrite H. Qed.
Lemma trim_left_id s : begins_without P s -> trim_left_by p s = s.
Proof. destruct s as [|c s]; [reflexivity|]. intros B. cbn. destruct (p c) eqn:E; [|reflexivity]. apply pP in E. destruct (B c s eq_refl E). Qed.
Lemma trim_left_begins s : begins_without P (trim_left_by p s).
Proof. induction s as [|c s IH]; intros d r E; cbn in E; [discriminate|]. destruct (p c) eqn:Q; [now apply (IH d r)|]. injection E as -> ->. rewrite <- pP, Q. discriminate. Qed.
Lemma ends_rev s : ends_without P s <-> begins_without P (rev s).
Proof.
  split; intros H.
  - intros c r E. apply (H (rev r)). rewrite <- (rev_involutive s), E. reflexivity.
  - intros r c E. apply (H c (rev r)). rewrite E. now rewrite rev_app_distr.
Qed.
Lemma trim_right_skip s w : Forall P w -> rev (trim_left_by p (rev (s ++ w))) = rev (trim_left_by p (rev s)).
Proof. intros F. rewrite rev_app_distr, trim_left_skip; [reflexivity|]. rewrite Forall_forall in *. intros c I. apply F. now apply in_rev. Qed.
Lemma trim_right_id s : ends_without P s -> rev (trim_left_by p (rev s)) = s.
Proof. intros E. rewrite trim_left_id by now apply ends_rev. apply rev_involutive. Qed.
Lemma trim_right_ends s : ends_without P (rev (trim_left_by p (rev s))).
Proof. apply ends_rev. rewrite rev_involutive. apply trim_left_begins. Qed.
Lemma trim_left_suffix s : exists w, s = w ++ trim_left_by p s /\ Forall P w.
Proof. induction s as [|c s (w & E & F)]; [exists []; auto|]. cbn. destruct (p c) eqn:Q; [|exists []; auto]. exists (c :: w). split; [cbn; congruence|]. constructor; auto. now apply pP. Qed.
Lemma trim_right_prefix s : exists w, s = rev (trim_left_by p (rev s)) ++ w /\ Forall P w.
Proof.
  destruct (trim_left_suffix (rev s)) as (w & E & F). exists (rev w). split.
  - rewrite <- rev_app_distr, <- E. now rewrite rev_involutive.
  - rewrite Forall_forall in *. intros c I. apply F. now apply in_rev.
Qed.
End Trim.
Lemma trim_right_line i t w : Forall blank i -> Forall trail w -> ends_without trail t -> t <> [] -> trim_right (i ++ t ++ w) = i ++ t.
Proof.
  intros Fi Fw E N. unfold trim_right. rewrite app_assoc, (trim_right_skip is_trail trail trail_iff) by auto. apply (trim_right_id is_trail trail trail_iff).
  intros r c Q. destruct (exists_last N) as (t' & d & ->). rewrite app_assoc in Q. apply app_inj_tail in Q as [_ <-]. now apply (E t').
Qed.
Lemma begins_app P s w : s <> [] -> begins_without P s -> begins_without P (s ++ w).
Proof. destruct s as [|c s]; [congruence|]. intros _ B d r E. injection E as <- _. now apply (B c s). Qed.
Lemma ends_app P s w : s <> [] -> ends_without P s -> ends_without P (w ++ s).
Proof. intros N E r c Q. destruct (exists_last N) as (t & d & ->). rewrite app_assoc in Q. apply app_inj_tail in Q as [_ <-]. now apply (E t). Qed.
Lemma trim_space_iff s x : trim_space s = x <-> stripped s x.
Proof.
  unfold trim_space. split.
  - intros <-. destruct (trim_left_suffix is_space white white_iff s) as (v & E & Fv). destruct (trim_right_prefix is_space white white_iff (trim_left_by is_space s)) as (w & E2 & Fw).
    exists v, w. rewrite <- E2. repeat split; auto; [|apply (trim_right_ends is_space white white_iff)].
    pose proof (trim_left_begins is_space white white_iff s) as B. rewrite E2 in B. intros c r Q. rewrite Q in B. now apply (B c (r ++ w)).
  - intros (v & w & -> & Fv & Fw & B & E). rewrite (trim_left_skip is_space white white_iff) by auto. destruct x as [|c x].
    + cbn [app]. rewrite <- (app_nil_r w), (trim_left_skip is_space white white_iff) by auto. reflexivity.
    + rewrite (trim_left_id is_space white white_iff ((c :: x) ++ w)) by (apply begins_app; [discriminate|exact B]). rewrite (trim_right_skip is_space white white_iff) by auto. now apply (trim_right_id is_space white white_iff).
Qed.
Lemma trim_suffix_iff t b suf : suf <> [] -> (trim_suffix t suf = b <-> t = b ++ suf \/ t = b /\ forall r, t <> r ++ suf).
Proof.
  intros N. unfold trim_suffix. destruct (has_suffix t suf) eqn:H.
  - apply has_suffix_iff in H as [r ->]. rewrite app_length, Nat.add_sub, firstn_app, Nat.sub_diag, firstn_O, app_nil_r, firstn_all. split; [intros ->; now left|].
    intros [Q|[_ Q]]; [now apply app_inv_tail in Q|destruct (Q r eq_refl)].
  - split; [intros <-; right; split; auto|intros [->|[-> _]]; auto].
    + intros r ->. assert (has_suffix (r ++ suf) suf = true) by (apply has_suffix_iff; eauto). congruence.
    + assert (has_suffix (b ++ suf) suf = true) by (apply has_suffix_iff; eauto). congruence.
Qed.
Lemma split_at (a p b : bytes) : firstn (length a) (a ++ p ++ b) = a /\ skipn (length a + length p) (a ++ p ++ b) = b.
Proof. split; [rewrite firstn_app, Nat.sub_diag, firstn_O, app_nil_r; apply firstn_all|]. rewrite app_assoc, skipn_app, app_length, Nat.sub_diag, skipn_O. rewrite skipn_all2 by (rewrite app_length; lia). reflexivity. Qed.
Lemma parse_copy_iff r c : parse_copy r = Some c <-> exists a t b, stripped r (a ++ #" as " ++ t) /\ first_after a #" as " /\ copy_target t b /\ c = CopyFunc a b.
Proof.
  unfold parse_copy. split.
  - intros H. destruct (index (trim_space r) #" as ") as [i|] eqn:I; [|discriminate]. injection H as <-. apply index_some_iff in I as (a & t & E & L & F); [|discriminate].
    exists a, t, (trim_suffix t #" append to file end"). rewrite E, <- L. destruct (split_at a #" as " t) as [-> Q]. change (length #" as ") with 4 in Q. rewrite Q.
    repeat split; auto; [now apply trim_space_iff|]. unfold copy_target. apply trim_suffix_iff; [discriminate|reflexivity].
  - intros (a & t & b & S & F & T & ->). apply trim_space_iff in S. rewrite S. rewrite index_first_after by (auto; discriminate).
    destruct (split_at a #" as " t) as [-> Q]. change (length #" as ") with 4 in Q. rewrite Q. do 2 f_equal. apply trim_suffix_iff; [discriminate|exact T].
Qed.
Lemma parse_directive_iff r c : parse_directive r = Some c <-> exists a b, stripped r (a ++ #" with " ++ b) /\ first_after a #" with " /\ c = ReplaceDirective a b.
Proof.
  unfold parse_directive. split.
  - intros H. destruct (index (trim_space r) #" with ") as [i|] eqn:I; [|discriminate]. injection H as <-. apply index_some_iff in I as (a & t & E & L & F); [|discriminate].
    exists a, t. rewrite E, <- L. destruct (split_at a #" with " t) as [-> Q]. change (length #" with ") with 6 in Q. rewrite Q.
    repeat split; auto. now apply trim_space_iff.
  - intros (a & b & S & F & ->). apply trim_space_iff in S. rewrite S. rewrite index_first_after by (auto; discriminate).
    destruct (split_at a #" with " b) as [-> Q]. change (length #" with ") with 6 in Q. now rewrite Q.
Qed.
Lemma parse_goto_iff t c : parse_goto t = Some c <-> goto_target t /\ c = Goto t.
Proof.
  unfold parse_goto, goto_target.
  assert (A : forall b : bool, (if b then Some (Goto t) else None) = Some c <-> b = true /\ c = Goto t) by (intros []; split; [intros [= <-]; auto|intros [_ ->]; auto|discriminate|intros [? _]; discriminate]).
  rewrite A, !orb_true_iff, !eqs_eq, !has_prefix_iff. split; intros [H ->]; split; auto.
  - destruct H as [[[[[H|H]|[n H]]|[n H]]|[n H]]|[n H]]; eauto 8.
  - destruct H as [H|[H|[n [H|[H|[H|H]]]]]]; eauto 8.
Qed.
(** The first word decides. *)
Definition dispatch (cmd rest : bytes) : option command :=
  if eqs cmd #"goto" then parse_goto rest
  else if eqs cmd #"match" then Some (Match rest)
  else if eqs cmd #"find_for_replace" then Some (FindForReplace rest)
  else if eqs cmd #"insert_before" then needs rest (InsertBefore rest)
  else if eqs cmd #"insert_after_line" then needs rest (InsertAfterLine rest)
  else if eqs cmd #"insert_after" then needs rest (InsertAfter rest)
  else if eqs cmd #"replace" then needs rest (ReplaceWith rest)
  else if eqs cmd #"newline" then Some Newline
  else if eqs cmd #"copy_func" then parse_copy rest
  else if eqs cmd #"replace_directive" then parse_directive rest
  else None.
Definition words (t : bytes) : bytes * bytes := match cut_first " "%char t with None => (t, []) | Some (cmd, rest) => (cmd, rest) end.
Lemma parse_line_words l t : trim_left_by is_blank (trim_right l) = t -> parse_line l = dispatch (fst (words t)) (snd (words t)).
Proof. intros <-. unfold parse_line, split_command, words. destruct (cut_first _ _) as [[]|]; reflexivity. Qed.
Lemma words_kw kw r : containsc " "%char kw = false -> words (kw ++ " "%char :: r) = (kw, r).
Proof. intros N. unfold words. rewrite cut_first_some; [reflexivity|]. intros I. apply containsc_in in I. congruence. Qed.
Ltac kw k r := match goal with |- context [words ?x] => replace (words x) with (k, r) by (symmetry; exact (words_kw k r eq_refl)) end; cbn [fst snd].
Lemma needs_some r c d : needs r c = Some d -> r <> [] /\ d = c.
Proof. destruct r; [discriminate|]. intros [= <-]. split; [discriminate|reflexivity]. Qed.
Lemma needs_ok r c : r <> [] -> needs r c = Some c.
Proof. destruct r; [congruence|reflexivity]. Qed.
Lemma ends_space kw r : ends_without trail (kw ++ " "%char :: r) -> r <> [].
Proof. intros E ->. apply (E kw " "%char eq_refl). left. now left. Qed.
Lemma dispatch_iff t c : ends_without trail t -> (dispatch (fst (words t)) (snd (words t)) = Some c <-> says t c).
Proof.
  intros En. split.
  - unfold words. destruct (cut_first " "%char t) as [[cmd rest]|] eqn:C; cbn [fst snd].
    + apply cut_first_sound in C as [-> _]. unfold dispatch.
      destruct (eqs cmd #"goto") eqn:K; [|clear K]. { apply eqs_eq in K as ->. intros H. apply parse_goto_iff in H as [G ->]. now apply says_goto. }
      destruct (eqs cmd #"match") eqn:K; [|clear K]. { apply eqs_eq in K as ->. intros [= <-]. apply says_match. }
      destruct (eqs cmd #"find_for_replace") eqn:K; [|clear K]. { apply eqs_eq in K as ->. intros [= <-]. apply says_find. }
      destruct (eqs cmd #"insert_before") eqn:K; [|clear K]. { apply eqs_eq in K as ->. intros H. apply needs_some in H as [_ ->]. apply says_before. }
      destruct (eqs cmd #"insert_after_line") eqn:K; [|clear K]. { apply eqs_eq in K as ->. intros H. apply needs_some in H as [_ ->]. apply says_after_line. }
      destruct (eqs cmd #"insert_after") eqn:K; [|clear K]. { apply eqs_eq in K as ->. intros H. apply needs_some in H as [_ ->]. apply says_after. }
      destruct (eqs cmd #"replace") eqn:K; [|clear K]. { apply eqs_eq in K as ->. intros H. apply needs_some in H as [_ ->]. apply says_replace. }
      destruct (eqs cmd #"newline") eqn:K; [|clear K]. { apply eqs_eq in K as ->. intros [= <-]. apply says_newline_text. }
      destruct (eqs cmd #"copy_func") eqn:K; [|clear K]. { apply eqs_eq in K as ->. intros H. apply parse_copy_iff in H as (a & u & b & S & F & T & ->). eapply says_copy; eauto. }
      destruct (eqs cmd #"replace_directive") eqn:K; [|discriminate]. { apply eqs_eq in K as ->. intros H. apply parse_directive_iff in H as (a & b & S & F & ->). eapply says_directive; eauto. }
    + unfold dispatch.
      destruct (eqs t #"goto") eqn:K; [discriminate|clear K].
      destruct (eqs t #"match") eqn:K; [|clear K]. { apply eqs_eq in K as ->. intros [= <-]. apply says_match_empty. }
      destruct (eqs t #"find_for_replace") eqn:K; [|clear K]. { apply eqs_eq in K as ->. intros [= <-]. apply says_find_empty. }
      destruct (eqs t #"insert_before") eqn:K; [discriminate|clear K].
      destruct (eqs t #"insert_after_line") eqn:K; [discriminate|clear K].
      destruct (eqs t #"insert_after") eqn:K; [discriminate|clear K].
      destruct (eqs t #"replace") eqn:K; [discriminate|clear K].
      destruct (eqs t #"newline") eqn:K; [|clear K]. { apply eqs_eq in K as ->. intros [= <-]. apply says_newline. }
      destruct (eqs t #"copy_func") eqn:K; [discriminate|clear K].
      destruct (eqs t #"replace_directive") eqn:K; discriminate.
  - intros Y. revert En. destruct Y as [u G|u| |u| |u|u|u|u| |u|r a u b|r a b]; intros En.
    + kw #"goto" u. now apply parse_goto_iff.
    + kw #"match" u. reflexivity.
    + reflexivity.
    + kw #"find_for_replace" u. reflexivity.
    + reflexivity.
    + kw #"insert_before" u. apply needs_ok. now apply (ends_space #"insert_before").
    + kw #"insert_after" u. apply needs_ok. now apply (ends_space #"insert_after").
    + kw #"insert_after_line" u. apply needs_ok. now apply (ends_space #"insert_after_line").
    + kw #"replace" u. apply needs_ok. now apply (ends_space #"replace").
    + reflexivity.
    + kw #"newline" u. reflexivity.
    + kw #"copy_func" r. apply parse_copy_iff. eauto 8.
    + kw #"replace_directive" r. apply parse_directive_iff. eauto 8.
Qed.
Lemma says_first t c : says t c -> exists x r, t = x :: r /\ ~ blank x /\ ~ trail x /\ x <> "#"%char.
Proof.
  assert (A : forall x, is_trail x = false -> eqc x "#"%char = false -> ~ blank x /\ ~ trail x /\ x <> "#"%char).
  { intros x N M. assert (~ trail x) by (rewrite <- trail_iff, N; discriminate). repeat split; auto; [|now apply eqc_neq]. intros B. apply H. now left. }
  intros []; eexists _, _; (split; [reflexivity|apply A; reflexivity]).
Qed.
Lemma line_parts l : exists i w, l = i ++ trim_left_by is_blank (trim_right l) ++ w /\ Forall blank i /\ Forall trail w /\ ends_without trail (trim_left_by is_blank (trim_right l)).
Proof.
  destruct (trim_right_prefix is_trail trail trail_iff l) as (w & E & Fw). fold (trim_right l) in E. destruct (trim_left_suffix is_blank blank blank_iff (trim_right l)) as (i & E2 & Fi).
  exists i, w. rewrite app_assoc, <- E2. repeat split; auto. pose proof (trim_right_ends is_trail trail trail_iff l) as En. fold (trim_right l) in En.
  intros r c Q. apply (En (i ++ r) c). rewrite <- app_assoc, <- Q. exact E2.
Qed.
Theorem parse_line_iff l c : parse_line l = Some c <-> line_says l c.
Proof.
  split.
  - intros H. destruct (line_parts l) as (i & w & E & Fi & Fw & En). rewrite (parse_line_words l _ eq_refl) in H. apply dispatch_iff in H; auto. exists i, (trim_left_by is_blank (trim_right l)), w. auto.
  - intros (i & t & w & -> & Fi & Fw & En & S). destruct (says_first _ _ S) as (x & r & E & Nb & Nt & _). assert (t <> []) by (rewrite E; discriminate).
    rewrite (parse_line_words _ t). { apply dispatch_iff; auto. }
    rewrite trim_right_line by auto. rewrite (trim_left_skip is_blank blank blank_iff) by auto. apply (trim_left_id is_blank blank blank_iff). rewrite E. intros d s [= <- _]. exact Nb.
Qed.
Lemma parse_copy_none r : parse_copy r = None <-> exists x, stripped r x /\ ~ holds x #" as ".
Proof.
  unfold parse_copy. split.
  - intros H. exists (trim_space r). split; [now apply trim_space_iff|]. apply index_none_iff. destruct (index _ _); [discriminate|reflexivity].
  - intros (x & S & N). apply trim_space_iff in S as ->. apply index_none_iff in N. now rewrite N.
Qed.
Lemma parse_directive_none r : parse_directive r = None <-> exists x, stripped r x /\ ~ holds x #" with ".
Proof.
  unfold parse_directive. split.
  - intros H. exists (trim_space r). split; [now apply trim_space_iff|]. apply index_none_iff. destruct (index _ _); [discriminate|reflexivity].
  - intros (x & S & N). apply trim_space_iff in S as ->. apply index_none_iff in N. now rewrite N.
Qed.
Lemma parse_goto_none t : parse_goto t = None <-> ~ goto_target t.
Proof.
  split.
  - intros H G. assert (parse_goto t = Some (Goto t)) by now apply parse_goto_iff. congruence.
  - intros N. destruct (parse_goto t) as [c|] eqn:E; [|reflexivity]. apply parse_goto_iff in E as [G _]. contradiction.
Qed.
Lemma dispatch_none cmd rest : ~ In " "%char cmd -> dispatch cmd rest = None ->
  ~ In cmd command_names \/ (In cmd needs_text /\ rest = []) \/ (cmd = #"goto" /\ ~ goto_target rest) \/
  (cmd = #"copy_func" /\ exists x, stripped rest x /\ ~ holds x #" as ") \/ (cmd = #"replace_directive" /\ exists x, stripped rest x /\ ~ holds x #" with ").
Proof.
  intros Ns. unfold dispatch.
  destruct (eqs cmd #"goto") eqn:K0. { apply eqs_eq in K0 as ->. intros H. apply parse_goto_none in H. auto. }
  destruct (eqs cmd #"match") eqn:K1; [discriminate|].
  destruct (eqs cmd #"find_for_replace") eqn:K2; [discriminate|].
  destruct (eqs cmd #"insert_before") eqn:K3. { apply eqs_eq in K3 as ->. destruct rest; [|discriminate]. intros _. right. left. split; [cbn; tauto|reflexivity]. }
  destruct (eqs cmd #"insert_after_line") eqn:K4. { apply eqs_eq in K4 as ->. destruct rest; [|discriminate]. intros _. right. left. split; [cbn; tauto|reflexivity]. }
  destruct (eqs cmd #"insert_after") eqn:K5. { apply eqs_eq in K5 as ->. destruct rest; [|discriminate]. intros _. right. left. split; [cbn; tauto|reflexivity]. }
  destruct (eqs cmd #"replace") eqn:K6. { apply eqs_eq in K6 as ->. destruct rest; [|discriminate]. intros _. right. left. split; [cbn; tauto|reflexivity]. }
  destruct (eqs cmd #"newline") eqn:K7; [discriminate|].
  destruct (eqs cmd #"copy_func") eqn:K8. { apply eqs_eq in K8 as ->. intros H. apply parse_copy_none in H. auto 6. }
  destruct (eqs cmd #"replace_directive") eqn:K9. { apply eqs_eq in K9 as ->. intros H. apply parse_directive_none in H. auto 8. }
  intros _. left. unfold command_names. intros I. cbn [In] in I.
  repeat (destruct I as [<-|I]; [vm_compute in *; congruence|]). destruct I.
Qed.
Lemma dispatch_unknown cmd rest : ~ In cmd command_names -> dispatch cmd rest = None.
Proof.
  intros N. assert (A : forall k, In k command_names -> eqs cmd k = false) by (intros k I; destruct (eqs cmd k) eqn:E; [|reflexivity]; apply eqs_eq in E; subst; contradiction).
  unfold dispatch. rewrite !A by (unfold command_names; cbn [In]; auto 12). reflexivity.
Qed.
Lemma words_none t : ends_without trail t -> (dispatch (fst (words t)) (snd (words t)) = None <-> wrong t).
Proof.
  intros En. split.
  - unfold words. destruct (cut_first " "%char t) as [[cmd rest]|] eqn:C; cbn [fst snd]; intros H.
    + apply cut_first_sound in C as [-> Ns]. apply dispatch_none in H as [U|[[I ->]|[[-> G]|[[-> (x & S & N)]|[-> (x & S & N)]]]]]; auto.
      * apply wrong_word; eauto.
      * destruct (ends_space cmd [] En eq_refl).
      * now apply wrong_target.
      * eapply wrong_copy; eauto.
      * eapply wrong_directive; eauto.
    + assert (Ns : ~ In " "%char t). { intros I. apply in_split in I as (a & b & ->). clear -C. induction a as [|c a IH]; cbn in C; [now rewrite eqc_refl in C|]. destruct (eqc c _); [discriminate|]. destruct (cut_first " "%char (a ++ " "%char :: b)) as [[]|]; [discriminate|auto]. }
      apply dispatch_none in H as [U|[[I _]|[[-> G]|[[-> _]|[-> _]]]]]; auto.
      * rewrite <- (app_nil_r t). apply wrong_word; auto.
      * now apply wrong_no_text.
      * apply wrong_no_text. cbn; tauto.
      * apply wrong_no_text. cbn; tauto.
      * apply wrong_no_text. cbn; tauto.
  - intros Y. revert En. destruct Y as [w r Ns U R|w I|u G|r x S N|r x S N]; intros En.
    + destruct R as [->|[t ->]].
      * rewrite app_nil_r. unfold words. rewrite cut_first_none by auto. now apply dispatch_unknown.
      * unfold words. rewrite cut_first_some by auto. now apply dispatch_unknown.
    + unfold needs_text in I. cbn [In] in I. repeat (destruct I as [<-|I]; [reflexivity|]). destruct I.
    + kw #"goto" u. now apply parse_goto_none.
    + kw #"copy_func" r. apply parse_copy_none. eauto.
    + kw #"replace_directive" r. apply parse_directive_none. eauto.
Qed.
Lemma trim_right_idem l : trim_right (trim_right l) = trim_right l.
Proof. apply (trim_right_id is_trail trail trail_iff). apply (trim_right_ends is_trail trail trail_iff). Qed.
Lemma parse_line_trimmed l : parse_line (trim_right l) = parse_line l.
Proof. unfold parse_line, split_command. now rewrite trim_right_idem. Qed.
Lemma ignored_iff l : match trim_right l with [] => true | _ => has_prefix (trim_right l) #"#" end = true <-> ignored l.
Proof.
  destruct (trim_right_prefix is_trail trail trail_iff l) as (w & E & Fw). fold (trim_right l) in E. split.
  - intros H. destruct (trim_right l) as [|c t] eqn:T.
    + left. rewrite E. exact Fw.
    + apply has_prefix_sound in H as [r H]. right. exists (r ++ w). rewrite E, H. now rewrite <- app_assoc.
  - intros [F|[r ->]].
    + unfold trim_right. rewrite <- (app_nil_l l), (trim_right_skip is_trail trail trail_iff) by auto. reflexivity.
    + destruct (trim_right (#"#" ++ r)) as [|c t] eqn:T; [reflexivity|]. injection E as -> _. rewrite has_prefix_iff. exists t. reflexivity.
Qed.
Lemma line_wrong_iff l : ~ ignored l -> (parse_line l = None <-> line_wrong l).
Proof.
  intros Ni. split.
  - intros H. split; auto. destruct (line_parts l) as (i & w & E & Fi & Fw & En). rewrite (parse_line_words l _ eq_refl) in H. apply words_none in H; auto.
    exists i, (trim_left_by is_blank (trim_right l)), w. repeat split; auto. apply (trim_left_begins is_blank blank blank_iff).
  - intros (_ & i & t & w & -> & Fi & Fw & B & En & W). assert (Nt : t <> []).
    { intros ->. apply Ni. left. apply Forall_app. split; [|exact Fw]. eapply Forall_impl; [|exact Fi]. intros c H. now left. }
    rewrite (parse_line_words _ t). { now apply words_none. }
    rewrite trim_right_line by auto. rewrite (trim_left_skip is_blank blank blank_iff) by auto. now apply (trim_left_id is_blank blank blank_iff).
Qed.
Lemma line_says_not_ignored l c : line_says l c -> ~ ignored l.
Proof.
  intros (i & t & w & -> & Fi & Fw & En & Sy) Ig. destruct (says_first _ _ Sy) as (x & r & -> & Nb & Nt & Nh). destruct Ig as [F|[s E]].
  - apply Forall_app in F as [_ F]. inversion F; contradiction.
  - destruct i as [|d i]; [injection E; congruence|]. injection E as -> _. inversion Fi as [|? ? [B|B]]; discriminate.
Qed.
Lemma parse_lines_iff ls cs : parse_lines ls = Some cs <-> lines_say ls cs.
Proof.
  revert cs. induction ls as [|l ls IH]; intros cs.
  - split; [intros [= <-]; constructor|intros H; inversion H; reflexivity].
  - cbn [parse_lines]. rewrite parse_line_trimmed. destruct (match trim_right l with [] => true | _ => has_prefix (trim_right l) #"#" end) eqn:Ig.
    + apply ignored_iff in Ig. rewrite IH. split; [intros H; now constructor|]. intros H. inversion H; subst; auto. exfalso. eapply line_says_not_ignored; eauto.
    + assert (Ni : ~ ignored l) by (rewrite <- ignored_iff, Ig; discriminate). split.
      * destruct (parse_line l) as [c|] eqn:P; [|discriminate]. destruct (parse_lines ls) as [ds|]; [|discriminate]. intros [= <-]. apply say_command; [now apply parse_line_iff|now apply IH].
      * intros H. inversion H; subst; [contradiction|]. match goal with A : line_says l _ |- _ => apply parse_line_iff in A; rewrite A end. match goal with A : lines_say ls _ |- _ => apply IH in A; rewrite A end. reflexivity.
Qed.
Lemma parse_lines_none ls : parse_lines ls = None <-> exists l, In l ls /\ line_wrong l.
Proof.
  induction ls as [|l ls IH]; [split; [discriminate|intros (l & [] & _)]|]. cbn [parse_lines]. rewrite parse_line_trimmed.
  destruct (match trim_right l with [] => true | _ => has_prefix (trim_right l) #"#" end) eqn:Ig.
  - apply ignored_iff in Ig. rewrite IH. split; intros (k & I & W); [exists k; split; [now right|auto]|]. destruct I as [->|I]; [destruct W; contradiction|eauto].
  - assert (Ni : ~ ignored l) by (rewrite <- ignored_iff, Ig; discriminate). destruct (parse_line l) as [c|] eqn:P.
    + assert (Nw : ~ line_wrong l) by (intros W; apply line_wrong_iff in W; congruence). destruct (parse_lines ls) as [ds|] eqn:D.
      * split; [discriminate|]. intros (k & [->|I] & W); [contradiction|]. assert (@Some (list command) ds = None) by (apply IH; eauto). discriminate.
      * split; [|auto]. intros _. destruct IH as [IH _]. destruct (IH eq_refl) as (k & I & W). exists k. split; [now right|auto].
    + split; [|auto]. intros _. exists l. split; [now left|]. now apply line_wrong_iff.
Qed.
Lemma holds_gt s : holds s #">" <-> In ">"%char s.
Proof.
  split.
  - intros (a & b & ->). apply in_or_app. right. now left.
  - intros I. apply in_split in I as (a & b & ->). exists a, b. reflexivity.
Qed.
Lemma first_open t : ~ holds t #"<patch" -> first_after t #"<patch".
Proof. intros N. apply first_after_simple; [|exact N]. intros I. apply containsc_in in I. vm_compute in I. discriminate. Qed.
Lemma first_close t : ~ holds t #"</patch>" -> first_after t #"</patch>".
Proof. intros N. apply first_after_simple; [|exact N]. intros I. apply containsc_in in I. vm_compute in I. discriminate. Qed.
Lemma first_gt t : ~ In ">"%char t -> first_after t #">".
Proof. intros N. apply first_after_simple; [intros []|]. now rewrite <- holds_gt in N. Qed.
Lemma no_gt_open tag : ~ In ">"%char tag -> ~ In ">"%char (#"<patch" ++ tag).
Proof. intros N I. apply in_app_iff in I as [I|I]; [|auto]. apply containsc_in in I. vm_compute in I. discriminate. Qed.
Lemma skip_app (a b : bytes) : skipn (length a) (a ++ b) = b.
Proof. rewrite skipn_app, Nat.sub_diag, skipn_O, skipn_all2 by lia. reflexivity. Qed.
Lemma cases content :
  ~ holds content #"<patch" \/
  (exists t r, content = t ++ #"<patch" ++ r /\ ~ holds t #"<patch" /\ ~ In ">"%char r) \/
  (exists t tag r, content = t ++ #"<patch" ++ tag ++ #">" ++ r /\ ~ holds t #"<patch" /\ ~ In ">"%char tag /\ ~ holds r #"</patch>") \/
  (exists t tag ls rest, content = t ++ block_text tag ls ++ rest /\ ~ holds t #"<patch" /\ ~ In ">"%char tag /\ lines_ok ls).
Proof.
  destruct (index content #"<patch") as [i|] eqn:I; [|left; now apply index_none_iff]. right. apply index_some_iff in I as (t & r & -> & _ & F); [|discriminate]. apply first_after_holds in F.
  destruct (index r #">") as [j|] eqn:J; [|left; exists t, r; repeat split; auto; rewrite <- holds_gt; now apply index_none_iff]. right.
  apply index_some_iff in J as (tag & r2 & -> & _ & G); [|discriminate]. apply first_after_holds in G. rewrite holds_gt in G.
  destruct (index r2 #"</patch>") as [k|] eqn:K; [|left; exists t, tag, r2; repeat split; auto; now apply index_none_iff]. right.
  apply index_some_iff in K as (body & rest & -> & _ & H); [|discriminate]. apply first_after_holds in H. exists t, tag, (split newline body), rest.
  unfold block_text. rewrite join_split. repeat split; auto.
  - rewrite <- !app_assoc. reflexivity.
  - apply split_nonempty.
  - apply Forall_forall. intros x. apply split_no_sep.
  - now rewrite join_split.
Qed.
Lemma blocks_none fuel content : ~ holds content #"<patch" -> parse_blocks fuel content = Some [].
Proof. intros N. destruct fuel; [reflexivity|]. apply index_none_iff in N. cbn [parse_blocks]. now rewrite N. Qed.
Lemma blocks_open fuel t r : ~ holds t #"<patch" -> ~ In ">"%char r -> parse_blocks (S fuel) (t ++ #"<patch" ++ r) = None.
Proof.
  intros N G. cbn [parse_blocks]. rewrite index_first_after by (try discriminate; now apply first_open). rewrite skip_app.
  apply no_gt_open in G. rewrite <- holds_gt in G. apply index_none_iff in G. now rewrite G.
Qed.
Lemma blocks_tag fuel t tag r : ~ holds t #"<patch" -> ~ In ">"%char tag -> ~ holds r #"</patch>" -> parse_blocks (S fuel) (t ++ #"<patch" ++ tag ++ #">" ++ r) = None.
Proof.
  intros N G H. cbn [parse_blocks]. rewrite index_first_after by (try discriminate; now apply first_open). rewrite skip_app.
  rewrite (app_assoc #"<patch" tag). rewrite index_first_after by (try discriminate; now apply first_gt, no_gt_open).
  destruct (split_at (#"<patch" ++ tag) #">" r) as [_ Q]. change (length #">") with 1 in Q. rewrite Q. apply index_none_iff in H. now rewrite H.
Qed.
Lemma blocks_block fuel t tag ls rest : ~ holds t #"<patch" -> ~ In ">"%char tag -> lines_ok ls ->
  parse_blocks (S fuel) (t ++ block_text tag ls ++ rest) =
  match parse_lines ls with None => None | Some cs => match parse_blocks fuel rest with None => None | Some bs => Some ({| b_name := trim_space tag; b_commands := cs |} :: bs) end end.
Proof.
  intros N G (L1 & L2 & L3). unfold block_text. rewrite <- !app_assoc. cbn [parse_blocks]. rewrite index_first_after by (try discriminate; now apply first_open). rewrite skip_app.
  rewrite (app_assoc #"<patch" tag). rewrite index_first_after by (try discriminate; now apply first_gt, no_gt_open).
  destruct (split_at (#"<patch" ++ tag) #">" (join [newline] ls ++ #"</patch>" ++ rest)) as [_ Q]. change (length #">") with 1 in Q. rewrite Q.
  rewrite index_first_after by (try discriminate; now apply first_close). destruct (split_at (join [newline] ls) #"</patch>" rest) as [Q1 Q2]. change (length #"</patch>") with 8 in Q2. rewrite Q1, Q2.
  replace (firstn (length (#"<patch" ++ tag) - 6) (skipn 6 ((#"<patch" ++ tag) ++ #">" ++ join [newline] ls ++ #"</patch>" ++ rest))) with tag.
  2:{ rewrite app_length. change (length #"<patch") with 6. replace (6 + length tag - 6) with (length tag) by lia. rewrite <- app_assoc. change 6 with (length #"<patch"). rewrite skip_app. symmetry. apply (split_at tag #">"). }
  unfold parse_block. rewrite split_join by auto. destruct (parse_lines ls); reflexivity.
Qed.
Lemma block_length tag ls : 0 < length (block_text tag ls).
Proof. unfold block_text. cbn. lia. Qed.
Lemma rest_shorter (t : bytes) tag ls (rest : bytes) fuel : length (t ++ block_text tag ls ++ rest) < S fuel -> length rest < fuel.
Proof. rewrite !app_length. pose proof (block_length tag ls). lia. Qed.
Lemma block_parts tag ls rest : exists r, block_text tag ls ++ rest = #"<patch" ++ r /\ r = tag ++ #">" ++ join [newline] ls ++ #"</patch>" ++ rest.
Proof. eexists. split; [|reflexivity]. unfold block_text. now rewrite <- !app_assoc. Qed.
Lemma parse_sound fuel : forall content bs, length content < fuel -> parse_blocks fuel content = Some bs -> doc content bs.
Proof.
  induction fuel as [|fuel IH]; intros content bs L H; [lia|].
  destruct (cases content) as [N|[(t & r & -> & N & G)|[(t & tag & r & -> & N & G & C)|(t & tag & ls & rest & -> & N & G & O)]]].
  - rewrite blocks_none in H by auto. injection H as <-. now constructor.
  - rewrite blocks_open in H by auto. discriminate.
  - rewrite blocks_tag in H by auto. discriminate.
  - rewrite blocks_block in H by auto. destruct (parse_lines ls) as [cs|] eqn:P; [|discriminate]. destruct (parse_blocks fuel rest) as [ds|] eqn:D; [|discriminate]. injection H as <-.
    apply parse_lines_iff in P. apply IH in D; [|eapply rest_shorter; eauto]. constructor; auto. split; auto. now apply trim_space_iff.
Qed.
Lemma parse_complete content bs : doc content bs -> forall fuel, length content < fuel -> parse_blocks fuel content = Some bs.
Proof.
  induction 1 as [t N|t tag ls rest name cs bs N [T G] O P D IH]; intros fuel L; [now apply blocks_none|].
  destruct fuel as [|fuel]; [lia|]. rewrite blocks_block by auto. apply parse_lines_iff in P. rewrite P, IH by (eapply rest_shorter; eauto). apply trim_space_iff in T. now rewrite T.
Qed.
Lemma parse_broken content : broken content -> forall fuel, length content < fuel -> parse_blocks fuel content = None.
Proof.
  induction 1 as [t r N G|t tag r N G C|t tag ls rest l N G O I W|t tag ls rest N G O B IH]; intros fuel L; (destruct fuel as [|fuel]; [lia|]).
  - now apply blocks_open.
  - now apply blocks_tag.
  - rewrite blocks_block by auto. assert (parse_lines ls = None) as -> by (apply parse_lines_none; eauto). reflexivity.
  - rewrite blocks_block by auto. rewrite IH by (eapply rest_shorter; eauto). now destruct (parse_lines ls).
Qed.
Lemma parse_none fuel : forall content, length content < fuel -> parse_blocks fuel content = None -> broken content.
Proof.
  induction fuel as [|fuel IH]; intros content L H; [lia|].
  destruct (cases content) as [N|[(t & r & -> & N & G)|[(t & tag & r & -> & N & G & C)|(t & tag & ls & rest & -> & N & G & O)]]].
  - rewrite blocks_none in H by auto. discriminate.
  - now apply broken_tag.
  - now apply broken_block.
  - rewrite blocks_block in H by auto. destruct (parse_lines ls) as [cs|] eqn:P.
    + destruct (parse_blocks fuel rest) as [ds|] eqn:D; [discriminate|]. apply broken_later; auto. apply IH; auto. eapply rest_shorter; eauto.
    + apply parse_lines_none in P as (l & I & W). eapply broken_line; eauto.
Qed.
(** ** Theorems *)
(** A patch file is read exactly as written: block by block, line by line. *)
Theorem C89_read_as_written content bs : parse_patch content = Some bs <-> doc content bs.
Proof. split; [apply parse_sound; lia|intros D; apply parse_complete; auto]. Qed.
(** An error is reported exactly for the files that have one. *)
Theorem C89_errors_reported content : parse_patch content = None <-> broken content.
Proof. split; [apply parse_none; lia|intros B; apply parse_broken; auto]. Qed.
(** A line is read exactly as its text says; what a command prints is read back as the same command. *)
Theorem C89_line_read l c : parse_line l = Some c <-> line_says l c.
Proof. apply parse_line_iff. Qed.
Lemma line_parsed l t c : l = t -> ends_without trail t -> says t c -> parse_line l = Some c.
Proof. intros -> En Sy. apply parse_line_iff. exists [], t, []. rewrite app_nil_r. repeat split; auto. Qed.
Lemma ends_of_app P (x y z : bytes) : y <> [] -> ends_without P (x ++ y) -> ends_without P (z ++ y).
Proof. intros N E r c Q. destruct (exists_last N) as (t & d & ->). rewrite app_assoc in Q. apply app_inj_tail in Q as [_ <-]. apply (E (x ++ t)). now rewrite <- app_assoc. Qed.
Lemma ends_white_trail s : ends_without white s -> ends_without trail s.
Proof. intros E r c Q T. apply (E r c Q). now left. Qed.
Lemma last_ends P (s : bytes) c : ~ P c -> ends_without P (s ++ [c]).
Proof. intros N r d Q. apply app_inj_tail in Q as [_ <-]. exact N. Qed.
Theorem C89_string_reads_back l c : parse_line l = Some c -> parse_line (command_string c) = Some c.
Proof.
  intros H. apply parse_line_iff in H as (i & t & w & El & Fi & Fw & En & Sy). clear El. revert En. destruct Sy as [u G|u| |u| |u|u|u|u| |u|r a u b H Fa Ct|r a b H Fa]; intros En; cbn [command_string].
  - eapply line_parsed; [reflexivity|exact En|now constructor].
  - eapply line_parsed; [reflexivity|exact En|now constructor].
  - reflexivity.
  - eapply line_parsed; [reflexivity|exact En|now constructor].
  - reflexivity.
  - eapply line_parsed; [reflexivity|exact En|now constructor].
  - eapply line_parsed; [reflexivity|exact En|now constructor].
  - eapply line_parsed; [reflexivity|exact En|now constructor].
  - eapply line_parsed; [reflexivity|exact En|now constructor].
  - reflexivity.
  - reflexivity.
  - destruct H as (v & y & _ & _ & _ & B & E). assert (Na : a <> []). { intros ->. apply (B " "%char (#"as " ++ u) eq_refl). left. left. now left. }
    assert (Bw : ~ white "d"%char) by (rewrite <- white_iff; vm_compute; discriminate).
    assert (Ea : forall x, ends_without white (x ++ a ++ #" as " ++ b ++ #" append to file end")).
    { intros x. replace (x ++ a ++ #" as " ++ b ++ #" append to file end") with ((x ++ a ++ #" as " ++ b ++ #" append to file en") ++ ["d"%char]) by (rewrite <- !app_assoc; reflexivity). now apply last_ends. }
    eapply line_parsed; [reflexivity|apply ends_white_trail, Ea|]. apply says_copy with (t := b ++ #" append to file end"); [|assumption|now left].
    exists [], []. rewrite app_nil_r. repeat split; auto; [|apply (Ea [])]. destruct a as [|z a]; [congruence|]. intros d s [= <- _]. apply (B z (a ++ #" as " ++ u) eq_refl).
  - destruct H as (v & y & _ & _ & _ & B & E). eapply line_parsed; [reflexivity| |].
    + apply ends_white_trail. apply ends_app; [destruct a; discriminate|exact E].
    + apply says_directive; [|assumption]. exists [], []. rewrite app_nil_r. repeat split; auto.
Qed.
(** The text after "newline" is dropped without a word; a comment that is indented is an error; a tag in capitals is text. *)
Theorem C89_dropped_text t : parse_line (#"newline " ++ t) = Some Newline.
Proof.
  destruct (trim_right_prefix is_trail trail trail_iff t) as (w & E & Fw). fold (trim_right t) in E. pose proof (trim_right_ends is_trail trail trail_iff t) as En. fold (trim_right t) in En.
  apply parse_line_iff. destruct (trim_right t) as [|c u] eqn:T.
  - exists [], #"newline", (" "%char :: w). cbn [app] in E. subst w. repeat split; auto; [constructor; [left; now left|auto]| |constructor].
    apply ends_white_trail. change #"newline" with (#"newlin" ++ ["e"%char]). apply last_ends. rewrite <- white_iff. vm_compute. discriminate.
  - exists [], (#"newline " ++ c :: u), w. rewrite E at 1. repeat split; auto; [|constructor]. apply ends_app; [discriminate|exact En].
Qed.
Lemma no_holds s p : contains s p = false -> ~ holds s p.
Proof. unfold contains. intros C. apply index_none_iff. destruct (index s p); [discriminate|reflexivity]. Qed.
Definition example : bytes :=
  #"text" ++ [newline] ++ #"<patch  proc.go >" ++ [newline] ++ #"# a comment" ++ [newline] ++ #"goto func newproc1" ++ [newline] ++ #"  insert_after_line  x := 1 " ++ [newline; newline] ++
  #"copy_func a.b as c append to file end" ++ [newline] ++ #"</patch>" ++ [newline] ++ #"<patch></patch>".
Example C89_example : parse_patch example = Some
  [{| b_name := #"proc.go"; b_commands := [Goto #"func newproc1"; InsertAfterLine #" x := 1"; CopyFunc #"a.b" #"c"] |}; {| b_name := []; b_commands := [] |}].
Proof. vm_compute. reflexivity. Qed.
Example C89_example_wrong :
  parse_patch #"<patch a>goto nowhere</patch>" = None /\ parse_patch #"<patch a>replace </patch>" = None /\ parse_patch #"<patch a>replace x" = None /\
  parse_patch #"<patch a> # note</patch>" = None /\ parse_patch #"<patch a>copy_func f</patch>" = None.
Proof. vm_compute. auto. Qed.
