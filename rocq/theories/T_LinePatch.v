(** * C35, C53, C54: the line-wise patcher.  Model: M_LinePatch. *)
From Coq Require Import Ascii String List Arith Bool Sorted Permutation Lia.
From Verif Require Import M_Str M_Patch P_Str M_LinePatch.
Import ListNotations.
Open Scope nat_scope.

(** ** Specification *)
(** A patched file as the user sees it: lines of the source, added regions, and lines of the
    source that are commented out. *)
Inductive item := Source (l : bytes) | Added (id : bytes) (ls : list bytes) | Out (id : bytes) (l : bytes).
Definition shown (i : item) : list bytes :=
  match i with
  | Source l => [l]
  | Added id ls => [#"/*<begin " ++ id ++ #">*/"] ++ ls ++ [#"/*<end " ++ id ++ #">*/"]
  | Out id l => [#"/*<begin " ++ id ++ #">*/"; #"/*<replaced>"; l; #"</replaced>*/"; #"/*<end " ++ id ++ #">*/"]
  end.
Definition source (i : item) : list bytes := match i with Source l => [l] | Added _ _ => [] | Out _ l => [l] end.
Definition text (ls : list bytes) : bytes := join [newline] ls.
Definition one_line (s : bytes) : Prop := ~ In newline s.
(** An id that can be told from the marks around it. *)
Definition id_ok (id : bytes) : Prop := id <> [] /\ one_line id /\ ~ In "*"%char id /\ ~ In "<"%char id.
(** A line without marks. *)
Definition plain (l : bytes) : Prop := one_line l /\ ~ occurs #"/*<begin " l /\ ~ occurs #"/*<end " l /\ ~ occurs #"/*<replaced>" l /\ ~ occurs #"</replaced>*/" l.
(** A text with extra empty lines. *)
Inductive spaced : list bytes -> list bytes -> Prop :=
| sp_nil : spaced [] []
| sp_line l a b : spaced a b -> spaced (l :: a) (l :: b)
| sp_empty a b : spaced a b -> spaced a ([] :: b).

(** ** Proofs *)
Definition tl_text (ls : list bytes) : bytes := flat_map (cons newline) ls.
Lemma text_cons x ls : text (x :: ls) = x ++ tl_text ls.
Proof. revert x. induction ls as [|y ls IH]; intros x; [now rewrite app_nil_r|]. change (text (x :: y :: ls)) with (x ++ newline :: text (y :: ls)). now rewrite IH. Qed.
Lemma tl_text_app a b : tl_text (a ++ b) = tl_text a ++ tl_text b. Proof. apply flat_map_app. Qed.
Definition begin_of (id : bytes) := u_begin ++ id ++ u_close.
Definition end_of_id (id : bytes) := u_end ++ id ++ u_close.

Lemma ub_begin : unbordered u_begin. Proof. apply unbordered_first. vm_compute. intuition discriminate. Qed.
Lemma ub_end : unbordered u_end. Proof. apply unbordered_first. vm_compute. intuition discriminate. Qed.
Lemma ub_rb : unbordered replaced_begin. Proof. apply unbordered_first. vm_compute. intuition discriminate. Qed.
Lemma ub_re : unbordered replaced_end. Proof. apply unbordered_first. vm_compute. intuition discriminate. Qed.
Lemma ub_close : unbordered #"*/". Proof. apply unbordered_first. vm_compute. intuition discriminate. Qed.

Lemma fr_none pre t : ~ occurs u_begin t -> find_range (pre ++ t) (length pre) = FNone.
Proof. intros H. unfold find_range. rewrite skipn_app_exact by auto. apply index_none_iff in H. now rewrite H. Qed.
Lemma fr_some pre a id body rest : ~ occurs u_begin a -> id_ok id -> ~ occurs u_end body ->
  find_range (pre ++ a ++ begin_of id ++ body ++ end_of_id id ++ rest) (length pre) =
  FRange (length (pre ++ a)) (length (pre ++ a ++ begin_of id ++ body ++ end_of_id id)).
Proof.
  intros Ha (Ni & _ & Hs & _) Hb. unfold find_range, begin_of, end_of_id. rewrite skipn_app_exact by auto.
  rewrite <- !app_assoc. rewrite (index_unbordered a u_begin) by (auto using ub_begin).
  set (i := length pre + length a + length u_begin).
  assert (Ei : i = length (pre ++ a ++ u_begin)) by (subst i; rewrite !app_length; lia).
  assert (Sk : skipn i (pre ++ a ++ u_begin ++ id ++ u_close ++ body ++ u_end ++ id ++ u_close ++ rest) = id ++ u_close ++ body ++ u_end ++ id ++ u_close ++ rest).
  { replace (pre ++ a ++ u_begin ++ id ++ u_close ++ body ++ u_end ++ id ++ u_close ++ rest) with ((pre ++ a ++ u_begin) ++ id ++ u_close ++ body ++ u_end ++ id ++ u_close ++ rest) by now rewrite <- !app_assoc. now apply skipn_app_exact. }
  rewrite Sk. change u_close with (#">" ++ #"*/") at 1. rewrite <- (app_assoc #">"). rewrite (app_assoc id).
  assert (NC : ~ occurs #"*/" (id ++ #">")).
  { intros O. destruct (barrier ">"%char #"*/" id [] ltac:(vm_compute; intuition discriminate) ltac:(discriminate) O) as [O'|O'].
    - apply Hs. now apply occurs_in in O'.
    - now apply occurs_nil_left in O'. }
  rewrite (index_unbordered (id ++ #">") #"*/") by (auto using ub_close).
  assert (N1 : nth_error (pre ++ a ++ u_begin ++ id ++ u_close ++ body ++ u_end ++ id ++ u_close ++ rest) (i + length (id ++ #">") - 1) = Some ">"%char).
  { replace (i + length (id ++ #">") - 1) with (i + length id) by (rewrite app_length; simpl; lia).
    rewrite Ei. replace (pre ++ a ++ u_begin ++ id ++ u_close ++ body ++ u_end ++ id ++ u_close ++ rest) with ((pre ++ a ++ u_begin) ++ id ++ u_close ++ body ++ u_end ++ id ++ u_close ++ rest) by now rewrite <- !app_assoc.
    rewrite nth_error_app2 by lia. replace (_ + length id - _) with (length id) by lia. rewrite nth_error_app2 by lia. rewrite Nat.sub_diag. reflexivity. }
  rewrite N1. rewrite eqc_refl. cbn [negb].
  replace (length (id ++ #">") - 1) with (length id) by (rewrite app_length; simpl; lia).
  rewrite firstn_app_exact by reflexivity.
  destruct id as [|c0 id0]; [congruence|]. set (id := c0 :: id0) in *. 
  set (j := i + length id + length u_close).
  assert (Sj : skipn j (pre ++ a ++ u_begin ++ id ++ u_close ++ body ++ u_end ++ id ++ u_close ++ rest) = body ++ (u_end ++ id ++ u_close) ++ rest).
  { replace (pre ++ a ++ u_begin ++ id ++ u_close ++ body ++ u_end ++ id ++ u_close ++ rest) with ((pre ++ a ++ u_begin ++ id ++ u_close) ++ body ++ (u_end ++ id ++ u_close) ++ rest) by now rewrite <- !app_assoc.
    apply skipn_app_exact. subst j. rewrite Ei, !app_length. lia. }
  rewrite Sj. rewrite (index_longer body u_end (id ++ u_close)) by (auto using ub_end).
  f_equal; subst j; rewrite ?Ei, !app_length; unfold bytes in *; lia.
Qed.

Lemma mark_no_replaced w id x : id_ok id -> ~ In "<"%char (x :: w) -> x <> "r"%char -> ~ occurs replaced_begin (#"/*<" ++ (x :: w) ++ id ++ u_close).
Proof.
  intros (_ & _ & _ & Hl) Hw Nx O. change replaced_begin with (#"/*" ++ #"<replaced>") in O. apply occurs_suffix in O.
  change (#"/*<" ++ (x :: w) ++ id ++ u_close) with ([] ++ "/"%char :: "*"%char :: "<"%char :: x :: w ++ id ++ u_close) in O.
  apply barrier in O as [O|O]; [now apply occurs_nil_left in O| |vm_compute; intuition discriminate|discriminate].
  change ("*"%char :: "<"%char :: x :: w ++ id ++ u_close) with ([] ++ "*"%char :: "<"%char :: x :: w ++ id ++ u_close) in O.
  apply barrier in O as [O|O]; [now apply occurs_nil_left in O| |vm_compute; intuition discriminate|discriminate].
  revert O. apply (not_occurs_head "<"%char "r"%char x); auto.
  intros I. apply Hw. change (x :: w ++ id ++ u_close) with ((x :: w) ++ id ++ u_close) in I. apply in_app_or in I as [I|I]; auto. exfalso. apply in_app_or in I as [I|I]; auto. vm_compute in I. intuition discriminate.
Qed.
Lemma begin_no_replaced id : id_ok id -> ~ occurs replaced_begin (begin_of id).
Proof. intros H. apply (mark_no_replaced #"egin " id "b"%char); auto; [vm_compute; intuition discriminate|discriminate]. Qed.
Lemma end_no_replaced id : id_ok id -> ~ occurs replaced_begin (end_of_id id).
Proof. intros H. apply (mark_no_replaced #"nd " id "e"%char); auto; [vm_compute; intuition discriminate|discriminate]. Qed.

Lemma tl_free w ls : ~ In newline w -> w <> [] -> Forall (fun l => ~ occurs w l) ls -> forall x, ~ occurs w x -> ~ occurs w (x ++ tl_text ls).
Proof.
  intros N Nw F. induction F as [|l ls Hl F IH]; intros x Hx; [now rewrite app_nil_r|]. change (tl_text (l :: ls)) with (newline :: l ++ tl_text ls).
  apply not_barrier; auto.
Qed.
Lemma tl_free0 w ls : ~ In newline w -> w <> [] -> Forall (fun l => ~ occurs w l) ls -> ~ occurs w (tl_text ls ++ [newline]).
Proof.
  intros N Nw F. apply not_barrier; auto; [|now apply occurs_nil_left]. change (tl_text ls) with ([] ++ tl_text ls). apply tl_free; auto. now apply occurs_nil_left.
Qed.
Lemma nl_begin : ~ In newline u_begin. Proof. vm_compute. intuition discriminate. Qed.
Lemma nl_end : ~ In newline u_end. Proof. vm_compute. intuition discriminate. Qed.
Lemma nl_rb : ~ In newline replaced_begin. Proof. vm_compute. intuition discriminate. Qed.
Lemma nl_re : ~ In newline replaced_end. Proof. vm_compute. intuition discriminate. Qed.

Lemma tl_region id ls : tl_text ((#"/*<begin " ++ id ++ #">*/") :: ls ++ [#"/*<end " ++ id ++ #">*/"]) = newline :: begin_of id ++ (tl_text ls ++ [newline]) ++ end_of_id id.
Proof.
  cbn [tl_text flat_map]. change (flat_map (cons newline) ?x) with (tl_text x). rewrite tl_text_app. unfold begin_of, end_of_id. cbn [tl_text flat_map].
  rewrite <- !app_comm_cons, <- !app_assoc, ?app_nil_r. reflexivity.
Qed.
Definition region_text (id : bytes) (ls : list bytes) := begin_of id ++ (tl_text ls ++ [newline]) ++ end_of_id id.
(** One added region. *)
Lemma step_added fuel pre a id ls rest : ~ occurs u_begin a -> id_ok id -> Forall (fun l => ~ occurs u_end l /\ ~ occurs replaced_begin l) ls ->
  unpatch_from (S fuel) (pre ++ a ++ region_text id ls ++ rest) (length pre) =
  option_map (app a) (unpatch_from fuel ((pre ++ a ++ region_text id ls) ++ rest) (length (pre ++ a ++ region_text id ls))).
Proof.
  intros Ha Hi F. unfold region_text. cbn [unpatch_from].
  assert (Fe : Forall (fun l => ~ occurs u_end l) ls) by (eapply Forall_impl; [|exact F]; cbv beta; intros; tauto).
  assert (Fr : Forall (fun l => ~ occurs replaced_begin l) ls) by (eapply Forall_impl; [|exact F]; cbv beta; intros; tauto).
  replace (pre ++ a ++ (begin_of id ++ (tl_text ls ++ [newline]) ++ end_of_id id) ++ rest) with (pre ++ a ++ begin_of id ++ (tl_text ls ++ [newline]) ++ end_of_id id ++ rest) by now rewrite <- !app_assoc.
  rewrite fr_some; auto; [|apply tl_free0; auto using nl_end; discriminate].
  unfold find_replaced.
  assert (Sl : slice (pre ++ a ++ begin_of id ++ (tl_text ls ++ [newline]) ++ end_of_id id ++ rest) (length (pre ++ a)) (length (pre ++ a ++ begin_of id ++ (tl_text ls ++ [newline]) ++ end_of_id id)) = begin_of id ++ (tl_text ls ++ [newline]) ++ end_of_id id).
  { replace (pre ++ a ++ begin_of id ++ (tl_text ls ++ [newline]) ++ end_of_id id ++ rest) with ((pre ++ a) ++ (begin_of id ++ (tl_text ls ++ [newline]) ++ end_of_id id) ++ rest) by now rewrite <- !app_assoc.
    apply slice_app; auto. rewrite !app_length. lia. }
  rewrite Sl.
  assert (NR : ~ occurs replaced_begin (begin_of id ++ (tl_text ls ++ [newline]) ++ end_of_id id)).
  { replace (begin_of id ++ (tl_text ls ++ [newline]) ++ end_of_id id) with ((begin_of id ++ tl_text ls) ++ newline :: end_of_id id) by now rewrite <- !app_assoc.
    apply not_barrier; [apply nl_rb|discriminate| |now apply end_no_replaced]. apply tl_free; auto using nl_rb; [discriminate|now apply begin_no_replaced]. }
  apply index_none_iff in NR. rewrite NR.
  replace (slice _ (length pre) (length (pre ++ a))) with a by (symmetry; apply slice_app; auto; rewrite app_length; lia).
  replace (pre ++ a ++ begin_of id ++ (tl_text ls ++ [newline]) ++ end_of_id id ++ rest) with ((pre ++ a ++ begin_of id ++ (tl_text ls ++ [newline]) ++ end_of_id id) ++ rest) by now rewrite <- !app_assoc.
  reflexivity.
Qed.
(** One line commented out. *)
Lemma step_out fuel pre a id l rest : ~ occurs u_begin a -> id_ok id -> plain l ->
  unpatch_from (S fuel) (pre ++ a ++ region_text id [replaced_begin; l; replaced_end] ++ rest) (length pre) =
  option_map (fun t => a ++ newline :: l ++ newline :: t) (unpatch_from fuel ((pre ++ a ++ region_text id [replaced_begin; l; replaced_end]) ++ rest) (length (pre ++ a ++ region_text id [replaced_begin; l; replaced_end]))).
Proof.
  intros Ha Hi (_ & Pb & Pe & Prb & Pre). unfold region_text. cbn [unpatch_from].
  set (ls := [replaced_begin; l; replaced_end]).
  replace (pre ++ a ++ (begin_of id ++ (tl_text ls ++ [newline]) ++ end_of_id id) ++ rest) with (pre ++ a ++ begin_of id ++ (tl_text ls ++ [newline]) ++ end_of_id id ++ rest) by now rewrite <- !app_assoc.
  rewrite fr_some; auto; [|apply tl_free0; auto using nl_end; [discriminate|]; subst ls; repeat constructor; auto; apply index_none_iff; reflexivity].
  unfold find_replaced.
  assert (Sl : slice (pre ++ a ++ begin_of id ++ (tl_text ls ++ [newline]) ++ end_of_id id ++ rest) (length (pre ++ a)) (length (pre ++ a ++ begin_of id ++ (tl_text ls ++ [newline]) ++ end_of_id id)) = begin_of id ++ (tl_text ls ++ [newline]) ++ end_of_id id).
  { replace (pre ++ a ++ begin_of id ++ (tl_text ls ++ [newline]) ++ end_of_id id ++ rest) with ((pre ++ a) ++ (begin_of id ++ (tl_text ls ++ [newline]) ++ end_of_id id) ++ rest) by now rewrite <- !app_assoc.
    apply slice_app; auto. rewrite !app_length. lia. }
  rewrite Sl. set (tail := newline :: end_of_id id).
  assert (Sub : begin_of id ++ (tl_text ls ++ [newline]) ++ end_of_id id = (begin_of id ++ [newline]) ++ replaced_begin ++ (newline :: l ++ [newline]) ++ replaced_end ++ tail).
  { subst ls tail. cbn [tl_text flat_map]. rewrite app_nil_r. rewrite <- !app_assoc. cbn [app]. rewrite <- !app_assoc. cbn [app]. reflexivity. }
  rewrite Sub. rewrite (index_unbordered (begin_of id ++ [newline]) replaced_begin _ ub_rb) by
    (apply not_barrier; [apply nl_rb|discriminate|now apply begin_no_replaced|now apply occurs_nil_left]).
  replace ((begin_of id ++ [newline]) ++ replaced_begin ++ (newline :: l ++ [newline]) ++ replaced_end ++ tail) with
    (((begin_of id ++ [newline]) ++ replaced_begin) ++ (newline :: l ++ [newline]) ++ replaced_end ++ tail) by now rewrite <- !app_assoc.
  rewrite skipn_app_exact by (rewrite !app_length; lia).
  assert (NE : ~ occurs replaced_end (newline :: l ++ [newline])).
  { change (newline :: l ++ [newline]) with ([] ++ newline :: l ++ [newline]). apply not_barrier; [apply nl_re|discriminate|now apply occurs_nil_left|].
    apply not_barrier; [apply nl_re|discriminate|auto|now apply occurs_nil_left]. }
  rewrite (index_unbordered (newline :: l ++ [newline]) replaced_end) by (auto using ub_re).
  replace (slice _ (length pre) (length (pre ++ a))) with a by (symmetry; apply slice_app; auto; rewrite app_length; lia).
  assert (Sm : slice (pre ++ a ++ begin_of id ++ (tl_text ls ++ [newline]) ++ end_of_id id ++ rest)
     (length (begin_of id ++ [newline]) + length (pre ++ a) + length replaced_begin)
     (length (newline :: l ++ [newline]) + (length (begin_of id ++ [newline]) + length replaced_begin) + length (pre ++ a)) = newline :: l ++ [newline]).
  { replace (pre ++ a ++ begin_of id ++ (tl_text ls ++ [newline]) ++ end_of_id id ++ rest) with
      (((pre ++ a) ++ (begin_of id ++ [newline]) ++ replaced_begin) ++ (newline :: l ++ [newline]) ++ (replaced_end ++ tail ++ rest)).
    - apply slice_app; rewrite !app_length; lia.
    - replace (pre ++ a ++ begin_of id ++ (tl_text ls ++ [newline]) ++ end_of_id id ++ rest) with ((pre ++ a) ++ (begin_of id ++ (tl_text ls ++ [newline]) ++ end_of_id id) ++ rest) by now rewrite <- !app_assoc.
      rewrite Sub. now rewrite <- !app_assoc. }
  rewrite Sm.
  replace (pre ++ a ++ begin_of id ++ (tl_text ls ++ [newline]) ++ end_of_id id ++ rest) with ((pre ++ a ++ begin_of id ++ (tl_text ls ++ [newline]) ++ end_of_id id) ++ rest) by now rewrite <- !app_assoc.
  replace (((begin_of id ++ [newline]) ++ replaced_begin) ++ (newline :: l ++ [newline]) ++ replaced_end ++ tail) with (begin_of id ++ (tl_text ls ++ [newline]) ++ end_of_id id) by (rewrite Sub; now rewrite <- !app_assoc).
  destruct (unpatch_from _ _ _) as [b|]; cbn [option_map]; auto. apply f_equal. apply f_equal. cbn [app]. apply f_equal. now rewrite <- app_assoc.
Qed.
Definition item_ok (i : item) : Prop :=
  match i with
  | Source l => plain l
  | Added id ls => id_ok id /\ Forall (fun l => one_line l /\ ~ occurs #"/*<end " l /\ ~ occurs #"/*<replaced>" l) ls
  | Out id l => id_ok id /\ plain l
  end.
Definition restored (i : item) : list bytes := match i with Source l => [l] | Added _ _ => [[]] | Out _ l => [[]; l; []] end.

Lemma out_region id l : tl_text (shown (Out id l)) = newline :: region_text id [replaced_begin; l; replaced_end].
Proof. unfold region_text. rewrite <- tl_region. reflexivity. Qed.
Lemma added_region id ls : tl_text (shown (Added id ls)) = newline :: region_text id ls.
Proof. unfold region_text. rewrite <- tl_region. reflexivity. Qed.
Lemma unpatch_items items : Forall item_ok items -> forall fuel pre a, length items < fuel -> ~ occurs u_begin a ->
  unpatch_from fuel (pre ++ a ++ tl_text (flat_map shown items)) (length pre) = Some (a ++ tl_text (flat_map restored items)).
Proof.
  induction 1 as [|i items Hi F IH]; intros fuel pre a L Ha; cbn [length] in L.
  - cbn [flat_map tl_text]. rewrite !app_nil_r. destruct fuel; [lia|]. cbn [unpatch_from]. rewrite fr_none by auto. now rewrite skipn_app_exact.
  - cbn [flat_map]. rewrite !tl_text_app. destruct fuel as [|fuel]; [lia|].
    assert (Ha' : ~ occurs u_begin (a ++ [newline])) by (apply not_barrier; [apply nl_begin|discriminate|auto|now apply occurs_nil_left]).
    destruct i as [l|id ls|id l].
    + change (tl_text (shown (Source l))) with (newline :: l ++ []). change (tl_text (restored (Source l))) with (newline :: l ++ []). rewrite app_nil_r.
      rewrite !(app_assoc a). apply IH; [lia|]. apply not_barrier; [apply nl_begin|discriminate|auto|]. apply Hi.
    + destruct Hi as [Hi Hl]. rewrite added_region. change (tl_text (restored (Added id ls))) with [newline].
      replace (pre ++ a ++ (newline :: region_text id ls) ++ tl_text (flat_map shown items)) with (pre ++ (a ++ [newline]) ++ region_text id ls ++ tl_text (flat_map shown items)) by now rewrite <- !app_assoc.
      rewrite step_added; auto; [|eapply Forall_impl; [|exact Hl]; cbv beta; intros; tauto].
      specialize (IH fuel (pre ++ (a ++ [newline]) ++ region_text id ls) [] ltac:(lia) ltac:(now apply occurs_nil_left)). cbn [app] in IH. rewrite IH. cbn [option_map]. now rewrite <- !app_assoc.
    + destruct Hi as [Hi Hl]. rewrite out_region. change (tl_text (restored (Out id l))) with (newline :: newline :: l ++ [newline]).
      replace (pre ++ a ++ (newline :: region_text id [replaced_begin; l; replaced_end]) ++ tl_text (flat_map shown items)) with (pre ++ (a ++ [newline]) ++ region_text id [replaced_begin; l; replaced_end] ++ tl_text (flat_map shown items)) by now rewrite <- !app_assoc.
      rewrite step_out; auto.
      specialize (IH fuel (pre ++ (a ++ [newline]) ++ region_text id [replaced_begin; l; replaced_end]) [] ltac:(lia) ltac:(now apply occurs_nil_left)). cbn [app] in IH. rewrite IH. cbn [option_map].
      f_equal. rewrite <- !app_assoc. cbn [app]. rewrite <- !app_assoc. reflexivity.
Qed.
Lemma shown_lines items : length items <= length (flat_map shown items).
Proof. induction items as [|i items IH]; auto. cbn [flat_map length]. rewrite app_length. destruct i; cbn [shown length app]; lia. Qed.
Lemma tl_length ls : length ls <= length (tl_text ls).
Proof. induction ls; cbn [tl_text flat_map length]; auto. rewrite app_length. simpl. unfold tl_text in *. lia. Qed.
Lemma text_region id ls rest : text (shown (Added id ls) ++ rest) = region_text id ls ++ tl_text rest.
Proof.
  assert (E : newline :: text (shown (Added id ls) ++ rest) = newline :: region_text id ls ++ tl_text rest).
  { change (newline :: region_text id ls ++ tl_text rest) with ((newline :: region_text id ls) ++ tl_text rest). rewrite <- added_region, <- tl_text_app. cbn [shown app]. rewrite text_cons. reflexivity. }
  congruence.
Qed.
Lemma text_out id l rest : text (shown (Out id l) ++ rest) = region_text id [replaced_begin; l; replaced_end] ++ tl_text rest.
Proof. apply (text_region id [replaced_begin; l; replaced_end]). Qed.
Lemma unpatch_text items : items <> [] -> Forall item_ok items -> unpatch (text (flat_map shown items)) = Some (text (flat_map restored items)).
Proof.
  intros N F. unfold unpatch.
  assert (L : length items <= S (length (text (flat_map shown items)))).
  { pose proof (shown_lines items). destruct (flat_map shown items) as [|x ls]; [simpl in *; lia|]. rewrite text_cons, app_length. pose proof (tl_length ls). cbn [length] in *. unfold bytes in *. lia. }
  destruct F as [|i items Hi F]; [congruence|]. cbn [flat_map] in *. cbn [length] in L.
  destruct i as [l|id ls|id l].
  - cbn [shown restored app] in *. rewrite !text_cons in *. apply (unpatch_items items F _ [] l); [lia|]. apply Hi.
  - rewrite text_region in *. destruct Hi as [Hi Hl].
    change (restored (Added id ls) ++ flat_map restored items) with ([] :: flat_map restored items). rewrite text_cons. cbn [app].
    pose proof (step_added (length (region_text id ls ++ tl_text (flat_map shown items))) [] [] id ls (tl_text (flat_map shown items)) ltac:(now apply occurs_nil_left) Hi ltac:(eapply Forall_impl; [|exact Hl]; cbv beta; intros; tauto)) as X. cbn [app length] in X. rewrite X. clear X.
    assert (G : 0 < length (region_text id ls)) by (unfold region_text, begin_of; rewrite !app_length; cbn; lia).
    pose proof (unpatch_items items F (length (region_text id ls ++ tl_text (flat_map shown items))) (region_text id ls) []) as U. cbn [app] in U. rewrite U; auto; [|now apply occurs_nil_left].
    rewrite app_length in *. pose proof (shown_lines items). pose proof (tl_length (flat_map shown items)). unfold bytes in *. lia.
  - rewrite text_out in *. destruct Hi as [Hi Hl].
    change (restored (Out id l) ++ flat_map restored items) with ([] :: l :: [] :: flat_map restored items). rewrite text_cons. cbn [app].
    pose proof (step_out (length (region_text id [replaced_begin; l; replaced_end] ++ tl_text (flat_map shown items))) [] [] id l (tl_text (flat_map shown items)) ltac:(now apply occurs_nil_left) Hi Hl) as X. cbn [app] in X. change (@length ascii []) with 0 in X. rewrite X. clear X.
    set (R := region_text id [replaced_begin; l; replaced_end]) in *.
    assert (G : 0 < length R) by (subst R; unfold region_text, begin_of; rewrite !app_length; cbn; lia).
    pose proof (unpatch_items items F (length (R ++ tl_text (flat_map shown items))) R []) as U. cbn [app] in U. rewrite U; [|rewrite app_length; pose proof (shown_lines items); pose proof (tl_length (flat_map shown items)); unfold bytes in *; lia|now apply occurs_nil_left].
    cbn [option_map]. f_equal.
Qed.

(** ** C53: where line edits go *)
(** What stands for line [l] with the edits [es]: what is put before it, then the line or its
    replacements and the commented-out line, then what is put after it. *)
Definition add (id : bytes) (ls : list bytes) : list item := match ls with [] => [] | _ => [Added id ls] end.
Fixpoint last_replacer (es : list ledit) : option bytes :=
  match es with
  | [] => None
  | e :: r => match last_replacer r with Some id => Some id | None => match l_replace e with [] => None | _ => Some (l_id e) end end
  end.
Definition items_for (es : list ledit) (l : bytes) : list item :=
  flat_map (fun e => add (l_id e) (l_prepend e)) es ++
  match last_replacer es with
  | None => [Source l]
  | Some id => flat_map (fun e => add (l_id e) (l_replace e)) es ++ [Out id l]
  end ++
  flat_map (fun e => add (l_id e) (l_append e)) es.
Definition at_line (k : nat) (es : list ledit) : list ledit := filter (fun e => l_line e =? k) es.
Fixpoint patched_items (k : nat) (lines : list bytes) (es : list ledit) : list item :=
  match lines with [] => [] | l :: r => items_for (at_line k es) l ++ patched_items (S k) r es end.

Lemma add_shown id ls : id <> [] -> flat_map shown (add id ls) = region id ls.
Proof. intros N. destruct ls as [|l ls]; auto. destruct id; [congruence|]. cbn [add flat_map region]. rewrite app_nil_r. reflexivity. Qed.
Lemma adds_shown (f : ledit -> list bytes) es : Forall (fun e => l_id e <> []) es -> flat_map shown (flat_map (fun e => add (l_id e) (f e)) es) = flat_map (fun e => region (l_id e) (f e)) es.
Proof. induction 1 as [|e es N F IH]; auto. cbn [flat_map]. now rewrite flat_map_app, add_shown, IH. Qed.
Lemma replacing_regions es : flat_map (fun e => region (l_id e) (l_replace e)) (replacing es) = flat_map (fun e => region (l_id e) (l_replace e)) es.
Proof. induction es as [|e es IH]; auto. cbn [replacing filter]. destruct (l_replace e) eqn:E; cbn [flat_map]; fold (replacing es); rewrite ?IH; auto. now rewrite E. Qed.
Lemma last_replacing es : match rev (replacing es) with [] => None | e :: _ => Some (l_id e) end = last_replacer es.
Proof.
  induction es as [|e es IH]; auto. cbn [replacing filter last_replacer]. rewrite <- IH. fold (replacing es). destruct (l_replace e); [now destruct (rev (replacing es))|].
  cbn [rev]. destruct (rev (replacing es)); reflexivity.
Qed.
Lemma mid_shown lines cursor es l : Forall (fun e => l_id e <> []) es -> nth_error lines (cursor - 1) = Some l ->
  exists mid, line_or_replaced lines cursor es = Some mid /\
    flat_map shown (items_for es l) = flat_map (fun e => region (l_id e) (l_prepend e)) es ++ mid ++ flat_map (fun e => region (l_id e) (l_append e)) es.
Proof.
  intros F E. unfold line_or_replaced, items_for. rewrite E. rewrite !flat_map_app, !adds_shown by auto. pose proof (last_replacing es) as LR.
  destruct (rev (replacing es)) as [|e r] eqn:R; rewrite <- LR.
  - eexists. split; [reflexivity|]. reflexivity.
  - assert (I : In e es). { assert (I : In e (rev (replacing es))) by (rewrite R; now left). apply in_rev in I. apply filter_In in I. tauto. }
    rewrite Forall_forall in F. pose proof (F e I) as Ne. destruct (l_id e) as [|c i] eqn:Ei; [congruence|].
    eexists. split; [reflexivity|]. rewrite flat_map_app, adds_shown by (now apply Forall_forall). rewrite replacing_regions. cbn [flat_map]. rewrite app_nil_r. reflexivity.
Qed.
Lemma at_line_none k es : Forall (fun e => l_line e <> k) es -> at_line k es = [].
Proof. induction 1 as [|e es N F IH]; auto. cbn [at_line filter]. apply Nat.eqb_neq in N. now rewrite N. Qed.
Lemma same_line_spec line es : by_line es -> Forall (fun e => line <= l_line e) es -> forall a b, same_line line es = (a, b) ->
  a = at_line line es /\ by_line b /\ Forall (fun e => line < l_line e) b /\ (forall k, line < k -> at_line k es = at_line k b) /\ length b <= length es /\ incl b es.
Proof.
  intros B F. induction B as [|e es B IH L]; intros a b E; cbn [same_line] in E.
  - injection E as <- <-. repeat split; auto; try constructor. intros x [].
  - inversion F; subst. destruct (l_line e =? line) eqn:Q.
    + destruct (same_line line es) as [a' b'] eqn:E'. injection E as <- <-. destruct (IH H2 a' b' eq_refl) as (-> & B' & F' & A & Le & I).
      repeat split; auto; [cbn [at_line filter]; now rewrite Q| |cbn; lia|intros x Hx; right; auto].
      intros k Hk. cbn [at_line filter]. fold (at_line k es). destruct (l_line e =? k) eqn:Q2; [apply Nat.eqb_eq in Q, Q2; lia|auto].
    + injection E as <- <-. apply Nat.eqb_neq in Q. assert (F2 : Forall (fun x => line < l_line x) (e :: es)).
      { constructor; [lia|]. eapply Forall_impl; [|exact L]. cbv beta. intros. lia. }
      repeat split; auto; [|constructor; auto|intros x; auto]. rewrite at_line_none; auto. eapply Forall_impl; [|exact F2]. cbv beta. intros. lia.
Qed.
Lemma patched_skip d : forall k lines es, Forall (fun e => k + d <= l_line e) es -> d <= length lines ->
  flat_map shown (patched_items k lines es) = firstn d lines ++ flat_map shown (patched_items (k + d) (skipn d lines) es).
Proof.
  induction d as [|d IH]; intros k lines es F L.
  - now rewrite Nat.add_0_r.
  - destruct lines as [|l lines]; [simpl in L; lia|]. cbn [patched_items firstn skipn]. rewrite at_line_none by (eapply Forall_impl; [|exact F]; cbv beta; intros; lia).
    change (items_for [] l) with [Source l]. cbn [app flat_map shown]. rewrite (IH (S k)); [|eapply Forall_impl; [|exact F]; cbv beta; intros; lia|simpl in L; lia].
    now rewrite Nat.add_succ_r.
Qed.
Lemma patched_later lines : forall k es es', (forall j, k <= j -> at_line j es = at_line j es') -> patched_items k lines es = patched_items k lines es'.
Proof. induction lines as [|l lines IH]; intros k es es' H; auto. cbn [patched_items]. rewrite (H k) by lia. f_equal. apply IH. intros. apply H. lia. Qed.
Lemma apply_items fuel : forall lines cursor es, length es <= fuel -> 1 <= cursor <= S (length lines) -> by_line es ->
  Forall (fun e => cursor <= l_line e <= length lines /\ l_id e <> []) es ->
  apply_sorted_lines fuel lines cursor es = Some (flat_map shown (patched_items cursor (skipn (cursor - 1) lines) es)).
Proof.
  induction fuel as [|fuel IH]; intros lines cursor es Lf C B F.
  - destruct es; [|simpl in Lf; lia]. cbn [apply_sorted_lines]. destruct (Nat.leb_spec (cursor - 1) (length lines)); [|lia].
    rewrite (patched_skip (length (skipn (cursor - 1) lines))) by auto. rewrite firstn_all, skipn_all. cbn. now rewrite app_nil_r.
  - destruct es as [|e es].
    + cbn [apply_sorted_lines]. destruct (Nat.leb_spec (cursor - 1) (length lines)); [|lia].
      rewrite (patched_skip (length (skipn (cursor - 1) lines))) by auto. rewrite firstn_all, skipn_all. cbn. now rewrite app_nil_r.
    + cbn [apply_sorted_lines]. inversion F as [|? ? [He Ne] F']; subst. destruct (Nat.ltb_spec (length lines) (l_line e)); [lia|].
      set (line := l_line e) in *. rewrite Nat.max_r by lia.
      assert (Fl : Forall (fun x => line <= l_line x) (e :: es)).
      { constructor; auto. inversion B; subst. auto. }
      destruct (same_line line (e :: es)) as [same rest] eqn:S1. destruct (same_line_spec line (e :: es) B Fl same rest S1) as (Es & Br & Fr & Ar & Lr & Ir).
      assert (SR : length rest <= fuel).
      { cbn [same_line] in S1. fold line in S1. rewrite Nat.eqb_refl in S1. destruct (same_line line es) as [a b] eqn:S2. injection S1 as <- <-.
        assert (G : forall l a b, same_line line l = (a, b) -> length b <= length l).
        { clear. induction l as [|x l IHl]; intros a b E; cbn [same_line] in E; [injection E as <- <-; auto|]. destruct (l_line x =? line).
          - destruct (same_line line l) as [a' b'] eqn:E'. injection E as <- <-. specialize (IHl _ _ eq_refl). cbn. lia.
          - injection E as <- <-. auto. }
        apply G in S2. simpl in Lf. lia. }
      set (d := line - cursor).
      rewrite (patched_skip d); [|eapply Forall_impl; [|exact Fl]; cbv beta; intros; subst d; lia|rewrite skipn_length; subst d; lia].
      replace (cursor + d) with line by (subst d; lia).
      assert (SS : skipn d (skipn (cursor - 1) lines) = skipn (line - 1) lines).
      { assert (G : forall (l : list bytes) a b, skipn a (skipn b l) = skipn (b + a) l) by (clear; induction l as [|x l IHl]; intros a b; [now rewrite !skipn_nil|]; destruct b; cbn [skipn Nat.add]; auto).
        rewrite G. f_equal. subst d. lia. }
      rewrite SS.
      destruct (nth_error lines (line - 1)) as [l|] eqn:N; [|apply nth_error_None in N; lia].
      assert (SK : skipn (line - 1) lines = l :: skipn line lines).
      { replace line with (S (line - 1)) at 2 by lia. revert N. generalize (line - 1). clear. induction lines as [|x lines IHl]; intros [|n] N; cbn in *; try discriminate; [congruence|now apply IHl]. }
      rewrite SK. cbn [patched_items]. rewrite flat_map_app. rewrite <- Es.
      assert (Fs : Forall (fun e => l_id e <> []) same).
      { rewrite Es. apply Forall_forall. intros x Hx. apply filter_In in Hx as [Hx _]. rewrite Forall_forall in F. now apply F. }
      destruct (mid_shown lines line same l Fs N) as (mid & M1 & M2). rewrite M1, M2.
      rewrite (IH lines (S line) rest); auto; [|lia|].
      * cbn [option_map]. apply f_equal. replace (S line - 1) with line by lia. rewrite (patched_later _ (S line) (e :: es) rest) by (intros; apply Ar; lia).
        rewrite <- !app_assoc. f_equal. destruct (Nat.ltb_spec cursor line); [f_equal; subst d; lia|]. replace d with 0 by (subst d; lia). reflexivity.
      * apply Forall_forall. intros x Hx. rewrite Forall_forall in F, Fr. specialize (F x (Ir x Hx)). specialize (Fr x Hx). cbv beta in *. split; [lia|tauto].
Qed.
(** However the edits of one line are ordered, they all go where they belong. *)
Theorem C53_line_edits :
  forall lines es, by_line es -> Forall (fun e => 1 <= l_line e <= length lines /\ l_id e <> []) es ->
  apply_lines lines es = Some (flat_map shown (patched_items 1 lines es)) /\ flat_map source (patched_items 1 lines es) = lines.
Proof.
  intros lines es B F. split.
  - unfold apply_lines. rewrite apply_items; auto. lia.
  - clear. generalize 1. induction lines as [|l lines IH]; intros k; auto.
    cbn [patched_items]. rewrite flat_map_app.
    assert (Z : forall f es, flat_map source (flat_map (fun e : ledit => add (l_id e) (f e)) es) = []).
      { clear. intros f es. induction es as [|e es IH]; auto. cbn [flat_map]. rewrite flat_map_app, IH, app_nil_r. now destruct (f e). }
      unfold items_for. rewrite !flat_map_app, !Z. cbn [app]. destruct (last_replacer _); rewrite ?flat_map_app, ?Z; cbn [app flat_map source]; f_equal; apply IH.
Qed.
Print Assumptions C53_line_edits.

(** ** C35: unpatching what was patched *)
Definition edit_ok (n : nat) (e : ledit) : Prop :=
  1 <= l_line e <= n /\ id_ok (l_id e) /\
  Forall (fun l => one_line l /\ ~ occurs #"/*<end " l /\ ~ occurs #"/*<replaced>" l) (l_prepend e ++ l_append e ++ l_replace e).
Lemma spaced_refl l : spaced l l. Proof. induction l; constructor; auto. Qed.
Lemma spaced_app a b c d : spaced a b -> spaced c d -> spaced (a ++ c) (b ++ d).
Proof. induction 1; intros; cbn [app]; auto; constructor; auto. Qed.
Lemma spaced_restored items : spaced (flat_map source items) (flat_map restored items).
Proof. induction items as [|i items IH]; [constructor|]. cbn [flat_map]. apply spaced_app; auto. destruct i; cbn; repeat constructor. Qed.
Lemma last_replacer_in es id : last_replacer es = Some id -> exists e, In e es /\ l_id e = id.
Proof.
  induction es as [|e es IH]; cbn [last_replacer]; [discriminate|]. destruct (last_replacer es) as [i|].
  - intros [= <-]. destruct (IH eq_refl) as (x & I & E). exists x. split; auto. now right.
  - destruct (l_replace e); [discriminate|]. intros [= <-]. exists e. split; auto. now left.
Qed.
Lemma items_ok n es : Forall (edit_ok n) es -> forall lines k, Forall plain lines -> Forall item_ok (patched_items k lines es).
Proof.
  intros F lines. induction lines as [|l lines IH]; intros k P; [constructor|]. inversion P; subst. cbn [patched_items]. apply Forall_app. split; auto.
  assert (Fk : Forall (edit_ok n) (at_line k es)) by (apply Forall_forall; intros x Hx; apply filter_In in Hx as [Hx _]; rewrite Forall_forall in F; auto).
  assert (A : forall f es, Forall (edit_ok n) es -> (forall e, incl (f e) (l_prepend e ++ l_append e ++ l_replace e)) -> Forall item_ok (flat_map (fun e => add (l_id e) (f e)) es)).
  { clear. intros f es F I. induction F as [|e es He F IH]; [constructor|]. cbn [flat_map]. apply Forall_app. split; auto. destruct He as (_ & Hi & Hl).
    destruct (f e) as [|x xs] eqn:E; constructor; [|constructor]. split; auto. rewrite <- E. rewrite Forall_forall in *. intros y Hy. apply Hl. now apply (I e). }
  unfold items_for. repeat (apply Forall_app; split).
  - apply A; auto. intros e x Hx. apply in_or_app. now left.
  - destruct (last_replacer _) as [id|] eqn:E; [|repeat constructor; apply H1]. apply Forall_app. split.
    + apply A; auto. intros e x Hx. apply in_or_app. right. apply in_or_app. now right.
    + constructor; [|constructor]. apply last_replacer_in in E as (e & I & <-). rewrite Forall_forall in Fk. destruct (Fk e I) as (_ & Hi & _). split; auto.
  - apply A; auto. intros e x Hx. apply in_or_app. right. apply in_or_app. now left.
Qed.
Lemma patched_nonempty k lines es : lines <> [] -> patched_items k lines es <> [].
Proof.
  destruct lines as [|l lines]; [congruence|]. intros _ H. apply (f_equal (flat_map source)) in H. cbn [patched_items] in H. unfold items_for in H. rewrite !flat_map_app in H.
  apply app_eq_nil in H as [H _]. apply app_eq_nil in H as [_ H]. apply app_eq_nil in H as [H _]. destruct (last_replacer _); cbn in H; [|discriminate].
  rewrite flat_map_app in H. apply app_eq_nil in H as [_ H]. discriminate.
Qed.
(** Unpatching gives the lines of the source back, in order, but leaves empty lines. *)
Theorem C35_unpatch_partial :
  forall lines es, lines <> [] -> by_line es -> Forall (edit_ok (length lines)) es -> Forall plain lines ->
  exists out back, apply_lines lines es = Some out /\ unpatch (text out) = Some (text back) /\ spaced lines back.
Proof.
  intros lines es N B F P. assert (F' : Forall (fun e => 1 <= l_line e <= length lines /\ l_id e <> []) es).
  { eapply Forall_impl; [|exact F]. intros e (H1 & (H2 & _) & _). auto. }
  destruct (C53_line_edits lines es B F') as [H1 H2].
  exists (flat_map shown (patched_items 1 lines es)), (flat_map restored (patched_items 1 lines es)). split; auto. split.
  - apply unpatch_text; [now apply patched_nonempty|now apply (items_ok (length lines))].
  - rewrite <- H2 at 1. apply spaced_restored.
Qed.
Print Assumptions C35_unpatch_partial.
(** It never gives the source back exactly: each region leaves an empty line. *)
Theorem C35_unpatch_refuted :
  forall lines es e, lines <> [] -> by_line es -> Forall (edit_ok (length lines)) es -> Forall plain lines ->
  In e es -> l_prepend e ++ l_append e ++ l_replace e <> [] ->
  exists out, apply_lines lines es = Some out /\ unpatch (text out) <> Some (text lines).
Proof.
  intros lines es e N B F P I Ne. assert (F' : Forall (fun e => 1 <= l_line e <= length lines /\ l_id e <> []) es).
  { eapply Forall_impl; [|exact F]. intros x (H1 & (H2 & _) & _). auto. }
  destruct (C53_line_edits lines es B F') as [H1 H2].
  exists (flat_map shown (patched_items 1 lines es)). split; auto.
  rewrite unpatch_text by (first [now apply patched_nonempty|now apply (items_ok (length lines))]).
  intros Q. assert (Q' : text (flat_map restored (patched_items 1 lines es)) = text lines) by congruence. clear Q.
  set (items := patched_items 1 lines es) in *.
  assert (Cnt : forall ls, ls <> [] -> Forall one_line ls -> split newline (text ls) = ls) by (intros; now apply split_join).
  assert (Pr : Forall one_line lines) by (eapply Forall_impl; [|exact P]; intros l Hl; apply Hl).
  assert (Ok : Forall item_ok items) by (subst items; now apply (items_ok (length lines))).
  assert (OR : Forall one_line (flat_map restored items)).
  { clear - Ok. induction Ok as [|i items Hi F IH]; [constructor|]. cbn [flat_map]. apply Forall_app. split; auto. destruct i; cbn [restored] in *; repeat constructor; try (intros []); try apply Hi. }
  apply (f_equal (split newline)) in Q'. rewrite !Cnt in Q'; auto.
  2:{ intros Z. pose proof (spaced_restored items) as Sp. rewrite H2 in Sp. rewrite Z in Sp. inversion Sp. congruence. }
  assert (IT : exists i, In i items /\ (forall l, i <> Source l)).
  { assert (A : forall k ls, In e es -> k <= l_line e < k + length ls -> exists i, In i (patched_items k ls es) /\ (forall l, i <> Source l)).
    { clear - Ne. intros k ls I. revert k. induction ls as [|l ls IH]; intros k L; cbn [length] in L; [lia|]. cbn [patched_items].
      destruct (Nat.eq_dec (l_line e) k) as [E|E].
      - assert (Ie : In e (at_line k es)) by (apply filter_In; split; auto; now apply Nat.eqb_eq).
        assert (G : forall f, f e <> [] -> In (Added (l_id e) (f e)) (flat_map (fun e => add (l_id e) (f e)) (at_line k es))).
        { intros f Hf. apply in_flat_map. exists e. split; auto. destruct (f e); [congruence|]. now left. }
        destruct (l_prepend e) as [|p ps] eqn:Ep; [destruct (l_append e) as [|q qs] eqn:Eq; [destruct (l_replace e) as [|r rs] eqn:Er|]|].
        + now destruct Ne.
        + destruct (last_replacer (at_line k es)) as [id|] eqn:El.
          * exists (Out id l). split; [|discriminate]. apply in_or_app. left. unfold items_for. rewrite El. apply in_or_app. right. apply in_or_app. left. apply in_or_app. right. now left.
          * exfalso. clear - El Er Ie. induction (at_line k es) as [|x xs IH]; [destruct Ie|]. cbn [last_replacer] in El. destruct (last_replacer xs); [discriminate|].
            destruct Ie as [->|Ie]; auto. now rewrite Er in El.
        + exists (Added (l_id e) (l_append e)). split; [|discriminate]. apply in_or_app. left. unfold items_for. apply in_or_app. right. apply in_or_app. right. apply G. congruence.
        + exists (Added (l_id e) (l_prepend e)). split; [|discriminate]. apply in_or_app. left. unfold items_for. apply in_or_app. left. apply G. congruence.
      - destruct (IH (S k)) as (i & Hi & Hn); [lia|]. exists i. split; auto. apply in_or_app. now right. }
    rewrite Forall_forall in F. destruct (F e I) as (Le & _). apply A; auto. lia. }
  destruct IT as (i & Ii & Ni).
  assert (LT : length (flat_map source items) < length (flat_map restored items)).
  { clear - Ii Ni. assert (G : forall l, length (flat_map source l) <= length (flat_map restored l)).
    { induction l as [|x l IH]; auto. cbn [flat_map]. rewrite !app_length. destruct x; cbn [source restored length]; lia. }
    induction items as [|x items IH]; [destruct Ii|]. cbn [flat_map]. rewrite !app_length. destruct Ii as [->|Ii].
    - pose proof (G items). destruct i; cbn [source restored length]; try lia. now destruct (Ni l).
    - specialize (IH Ii). destruct x; cbn [source restored length]; lia. }
  rewrite H2, Q' in LT. lia.
Qed.
Print Assumptions C35_unpatch_refuted.
(** A source without marks is left as it is; a mark that is never closed is an error. *)
Theorem C35_unpatched :
  (forall t, ~ occurs #"/*<begin " t -> unpatch t = Some t) /\
  (forall a t, ~ occurs #"/*<begin " a -> ~ occurs #"*/" t -> unpatch (a ++ #"/*<begin " ++ t) = None) /\
  (forall a id t, ~ occurs #"/*<begin " a -> id_ok id -> ~ occurs #"/*<end " t -> unpatch (a ++ #"/*<begin " ++ id ++ #">*/" ++ t) = None).
Proof.
  split; [|split].
  - intros t H. unfold unpatch. cbn [unpatch_from]. pose proof (fr_none [] t H) as X. cbn [app length] in X. now rewrite X.
  - intros a t Ha H. change (a ++ #"/*<begin " ++ t) with (a ++ u_begin ++ t). unfold unpatch. cbn [unpatch_from]. unfold find_range. cbn [skipn]. rewrite (index_unbordered a u_begin t ub_begin Ha).
    assert (Sk : skipn (0 + length a + length u_begin) (a ++ u_begin ++ t) = t).
    { replace (a ++ u_begin ++ t) with ((a ++ u_begin) ++ t) by now rewrite <- app_assoc. apply skipn_app_exact. rewrite app_length. reflexivity. }
    rewrite Sk. apply index_none_iff in H. now rewrite H.
  - intros a id t Ha Hi H. change (a ++ #"/*<begin " ++ id ++ #">*/" ++ t) with (a ++ u_begin ++ id ++ u_close ++ t). unfold unpatch. cbn [unpatch_from].
    assert (X : find_range (a ++ u_begin ++ id ++ u_close ++ t) 0 = FError); [|now rewrite X].
    unfold find_range. cbn [skipn]. rewrite (index_unbordered a u_begin _ ub_begin Ha). cbn [Nat.add].
    assert (Sk : skipn (length a + length u_begin) (a ++ u_begin ++ id ++ u_close ++ t) = id ++ u_close ++ t).
    { replace (a ++ u_begin ++ id ++ u_close ++ t) with ((a ++ u_begin) ++ id ++ u_close ++ t) by now rewrite <- app_assoc. apply skipn_app_exact. now rewrite app_length. }
    rewrite Sk. change u_close with (#">" ++ #"*/") at 1. rewrite <- (app_assoc #">"), (app_assoc id). destruct Hi as (Ni & No & Hs & Hl).
    assert (NC : ~ occurs #"*/" (id ++ #">")).
    { intros O. destruct (barrier ">"%char #"*/" id [] ltac:(vm_compute; intuition discriminate) ltac:(discriminate) O) as [O'|O'].
      - apply Hs. now apply occurs_in in O'.
      - now apply occurs_nil_left in O'. }
    rewrite (index_unbordered (id ++ #">") #"*/" t ub_close NC).
    destruct (nth_error _ _) as [ch|] eqn:En; [|reflexivity]. destruct (negb _); [reflexivity|].
    destruct (firstn _ _) as [|c0 r0] eqn:Ef; [reflexivity|].
    replace (index _ (u_end ++ (c0 :: r0) ++ u_close)) with (@None nat); [reflexivity|]. symmetry. apply index_none_iff. intros O. apply occurs_prefix in O.
    replace (length (id ++ #">") - 1) with (length id) in O by (rewrite app_length; simpl; lia).
    revert O. replace (a ++ u_begin ++ id ++ u_close ++ t) with ((a ++ u_begin ++ id ++ u_close) ++ t) by now rewrite <- !app_assoc.
    rewrite skipn_app_exact; auto. rewrite !app_length. cbn [length u_close lit list_ascii_of_string]. lia.
Qed.
Print Assumptions C35_unpatched.

(** *** Patching a patched file again *)
Definition nonblank (l : bytes) : bool := match l with [] => false | _ => true end.
(** The line number of the [k]-th line that is not empty. *)
Fixpoint pos (lines : list bytes) (k : nat) : nat :=
  match lines with
  | [] => 0
  | l :: r => if nonblank l then if k =? 1 then 1 else S (pos r (k - 1)) else S (pos r k)
  end.
Definition set_line (n : nat) (e : ledit) : ledit := {| l_id := l_id e; l_line := n; l_prepend := l_prepend e; l_append := l_append e; l_replace := l_replace e |}.
Definition relocate (lines : list bytes) (es : list ledit) : list ledit := map (fun e => set_line (pos lines (l_line e)) e) es.
(** The edits depend on the lines that are not empty, and stay with them. *)
Definition locates_by_content (locate : bytes -> option (list ledit)) (loc : list bytes -> option (list ledit)) : Prop :=
  forall t, locate t = option_map (relocate (split newline t)) (loc (filter nonblank (split newline t))).

Definition strip (es : list ledit) : list ledit := map (set_line 0) es.
Lemma strip_items es es' l : strip es = strip es' -> items_for es l = items_for es' l.
Proof.
  intros E. assert (A : forall f, (forall n e, f (set_line n e) = f e) -> flat_map (fun e => add (l_id e) (f e)) es = flat_map (fun e => add (l_id e) (f e)) es').
  { intros f Hf. assert (G : forall es, flat_map (fun e => add (l_id e) (f e)) es = flat_map (fun e => add (l_id e) (f e)) (strip es)).
    { induction es0 as [|e es0 IH]; auto. cbn [strip map flat_map]. fold (strip es0). rewrite <- IH, Hf. reflexivity. }
    rewrite (G es), (G es'), E. reflexivity. }
  assert (L : last_replacer es = last_replacer es').
  { assert (G : forall es, last_replacer es = last_replacer (strip es)).
    { induction es0 as [|e es0 IH]; auto. cbn [strip map last_replacer]. fold (strip es0). rewrite <- IH. reflexivity. }
    rewrite (G es), (G es'), E. reflexivity. }
  unfold items_for. rewrite L, !A; auto.
Qed.
Lemma patched_blank lines : forall k j es es',
  (forall i l, nth_error lines i = Some l -> strip (at_line (k + i) es') = if nonblank l then strip (at_line (j + length (filter nonblank (firstn i lines))) es) else []) ->
  filter nonblank (flat_map shown (patched_items k lines es')) = filter nonblank (flat_map shown (patched_items j (filter nonblank lines) es)).
Proof.
  induction lines as [|l lines IH]; intros k j es es' H; auto. cbn [patched_items]. rewrite flat_map_app, filter_app.
  pose proof (H 0 l eq_refl) as H0. rewrite Nat.add_0_r in H0. cbn [firstn filter length] in H0. rewrite Nat.add_0_r in H0. cbn [filter].
  destruct (nonblank l) eqn:N.
  - cbn [patched_items]. rewrite flat_map_app, filter_app. rewrite (strip_items _ _ l H0). f_equal. apply IH. intros i x Hx. specialize (H (S i) x Hx).
    cbn [firstn filter] in H. rewrite N in H. cbn [length] in H. rewrite Nat.add_succ_r in H. rewrite Nat.add_succ_r in H. exact H.
  - destruct (at_line k es'); [|discriminate]. destruct l; [|discriminate]. cbn [app flat_map shown items_for last_replacer filter nonblank].
    apply IH. intros i x Hx. specialize (H (S i) x Hx). cbn [firstn filter nonblank] in H. rewrite Nat.add_succ_r in H. exact H.
Qed.
Lemma pos_iff lines : forall q i, 1 <= q <= length (filter nonblank lines) ->
  (pos lines q = S i <-> exists l, nth_error lines i = Some l /\ nonblank l = true /\ q = S (length (filter nonblank (firstn i lines)))).
Proof.
  induction lines as [|l lines IH]; intros q i Q; [simpl in Q; lia|]. cbn [pos filter] in *. destruct (nonblank l) eqn:N.
  - cbn [length] in Q. destruct (Nat.eqb_spec q 1) as [->|Nq].
    + split; intros H.
      * injection H as <-. exists l. auto.
      * destruct H as (x & Hx & Nx & H). destruct i; auto. cbn [firstn filter] in H. rewrite N in H. cbn [length] in H. lia.
    + destruct i as [|i].
      * split; intros H.
        -- injection H as H. destruct lines; [cbn in Q; lia|]. cbn [pos] in H. destruct (nonblank b); [destruct (q - 1 =? 1)|]; discriminate.
        -- destruct H as (x & _ & _ & H). cbn in H. lia.
      * specialize (IH (q - 1) i ltac:(lia)). cbn [nth_error firstn filter]. rewrite N. cbn [length]. split; intros H.
        -- injection H as H. apply IH in H as (x & Hx & Nx & H). exists x. repeat split; auto. lia.
        -- f_equal. apply IH. destruct H as (x & Hx & Nx & H). exists x. repeat split; auto. lia.
  - destruct i as [|i].
    + split; intros H.
      * injection H as H. destruct lines; [cbn in Q; lia|]. cbn [pos] in H. destruct (nonblank b); [destruct (q =? 1)|]; discriminate.
      * destruct H as (x & Hx & Nx & _). cbn in Hx. congruence.
    + specialize (IH q i Q). cbn [nth_error firstn filter]. rewrite N. split; intros H.
      * injection H as H. now apply IH.
      * f_equal. now apply IH.
Qed.
Lemma relocate_blank lines es : Forall (fun e => 1 <= l_line e <= length (filter nonblank lines)) es ->
  filter nonblank (flat_map shown (patched_items 1 lines (relocate lines es))) = filter nonblank (flat_map shown (patched_items 1 (filter nonblank lines) es)).
Proof.
  intros F. apply patched_blank. intros i l Hl. cbn [Nat.add].
  assert (G : at_line (S i) (relocate lines es) = relocate lines (filter (fun e => pos lines (l_line e) =? S i) es)).
  { clear. induction es as [|e es IH]; auto. cbn [relocate map at_line filter set_line l_line]. destruct (_ =? _); cbn [map]; [f_equal|]; apply IH. }
  rewrite G. assert (St : forall es, strip (relocate lines es) = strip es) by (clear; induction es as [|e es IH]; auto; cbn [relocate strip map]; f_equal; apply IH). rewrite St.
  induction F as [|e es He F IH]; [now destruct (nonblank l)|]. cbn [filter at_line]. pose proof (pos_iff lines (l_line e) i He) as PI.
  specialize (IH ltac:(clear; induction es as [|e es IH]; auto; cbn [relocate map at_line filter set_line l_line]; destruct (_ =? _); cbn [map]; [f_equal|]; apply IH)).
  destruct (Nat.eqb_spec (pos lines (l_line e)) (S i)) as [E|E].
  - apply PI in E as (x & Hx & Nx & E). assert (x = l) by congruence. subst x. rewrite Nx in *. rewrite E, Nat.eqb_refl. cbn [strip map]. f_equal. exact IH.
  - destruct (nonblank l) eqn:N; [|exact IH]. destruct (Nat.eqb_spec (l_line e) (S (length (filter nonblank (firstn i lines))))) as [E2|E2]; [|exact IH].
    exfalso. apply E, PI. exists l. auto.
Qed.
Lemma pos_range lines q : 1 <= q <= length (filter nonblank lines) -> 1 <= pos lines q <= length lines.
Proof.
  intros Q. destruct (pos lines q) as [|i] eqn:E.
  - exfalso. revert q Q E. induction lines as [|l lines IH]; intros q Q E; [simpl in Q; lia|]. cbn [pos] in E. destruct (nonblank l); [destruct (q =? 1)|]; discriminate.
  - apply pos_iff in E as (l & Hl & _); auto. assert (i < length lines) by (apply nth_error_Some; congruence). lia.
Qed.
Lemma pos_mono lines : forall a b, 1 <= a -> a <= b -> b <= length (filter nonblank lines) -> pos lines a <= pos lines b.
Proof.
  induction lines as [|l lines IH]; intros a b A B C; auto. cbn [pos filter] in *. destruct (nonblank l); cbn [length] in *.
  - destruct (Nat.eqb_spec a 1), (Nat.eqb_spec b 1); try lia. specialize (IH (a - 1) (b - 1)). lia.
  - specialize (IH a b). lia.
Qed.
Lemma spaced_nonblank a b : spaced a b -> filter nonblank a = filter nonblank b.
Proof. induction 1 as [|l a b S IH|a b S IH]; auto. cbn [filter]. destruct (nonblank l); congruence. Qed.
Lemma relocate_ok lines es : by_line es -> Forall (edit_ok (length (filter nonblank lines))) es -> by_line (relocate lines es) /\ Forall (edit_ok (length lines)) (relocate lines es).
Proof.
  intros B F. split.
  - induction B as [|e es B IH L]; [constructor|]. inversion F as [|? ? He Fs]; subst. cbn [relocate map]. constructor; [now apply IH|]. apply Forall_map. rewrite Forall_forall in *. intros x Hx.
    cbn [set_line l_line]. specialize (L x Hx). specialize (Fs x Hx). destruct He as (He & _), Fs as (Fx & _). apply pos_mono; lia.
  - apply Forall_map. eapply Forall_impl; [|exact F]. intros e (H1 & H2 & H3). split; [|split; auto]. cbn [set_line l_line]. now apply pos_range.
Qed.
Definition same_code (a b : bytes) : Prop := filter nonblank (split newline a) = filter nonblank (split newline b).
(** Patching a patched file with the same patch gives the same code, up to empty lines: no
    edit is applied twice and none gets lost. *)
Theorem C35_patch_again :
  forall locate loc src es,
    locates_by_content locate loc ->
    Forall plain (split newline src) ->
    loc (filter nonblank (split newline src)) = Some es -> by_line es -> Forall (edit_ok (length (filter nonblank (split newline src)))) es ->
    exists once twice, patch locate src = Some once /\ patch locate once = Some twice /\ same_code once twice.
Proof.
  intros locate loc src es LC P Le B F. set (lines := split newline src) in *.
  assert (NL : lines <> []) by (subst lines; apply split_nonempty).
  assert (TL : text lines = src) by (subst lines; apply join_split).
  assert (NM : ~ occurs #"/*<begin " src).
  { rewrite <- TL. clear - P. destruct P as [|l ls H P]; [cbn; now apply occurs_nil_left|]. rewrite text_cons. apply tl_free; [apply nl_begin|discriminate| |apply H]. eapply Forall_impl; [|exact P]. intros x Hx. apply Hx. }
  destruct (relocate_ok lines es B F) as [B1 F1].
  destruct (C35_unpatch_partial lines (relocate lines es) NL B1 F1 P) as (out & back & A1 & U1 & S1).
  assert (F1' : Forall (fun e => 1 <= l_line e <= length lines /\ l_id e <> []) (relocate lines es)) by (eapply Forall_impl; [|exact F1]; intros e (H1 & (H2 & _) & _); auto).
  destruct (C53_line_edits lines (relocate lines es) B1 F1') as [A1' _]. rewrite A1 in A1'.
  assert (Eo : out = flat_map shown (patched_items 1 lines (relocate lines es))) by congruence. clear A1'.
  assert (P1 : patch locate src = Some (text out)).
  { unfold patch. rewrite (proj1 C35_unpatched src NM). rewrite LC. fold lines. rewrite Le. cbn [option_map]. now rewrite A1. }
  assert (Ol : Forall one_line out /\ out <> []).
  { assert (OK : Forall item_ok (patched_items 1 lines (relocate lines es))) by now apply (items_ok (length lines)).
    rewrite Eo. split.
    - clear - OK. induction OK as [|i items Hi OK IH]; [constructor|]. cbn [flat_map]. apply Forall_app. split; auto. clear - Hi.
      assert (M : forall w id, one_line w -> id_ok id -> one_line (w ++ id ++ #">*/")).
      { intros w id Hw (_ & Hn & _) I. apply in_app_or in I as [I|I]; auto. apply in_app_or in I as [I|I]; auto. vm_compute in I. intuition discriminate. }
      destruct i as [l|id ls|id l]; cbn [shown app].
      + constructor; [apply Hi|constructor].
      + destruct Hi as [Hi Hl]. constructor; [apply M; auto; vm_compute; intuition discriminate|]. apply Forall_app. split; [eapply Forall_impl; [|exact Hl]; intros x Hx; apply Hx|].
        constructor; [apply M; auto; vm_compute; intuition discriminate|constructor].
      + destruct Hi as [Hi Hl]. repeat constructor; try (apply M; auto; vm_compute; intuition discriminate); try apply Hl; vm_compute; intuition discriminate.
    - intros Z. pose proof (patched_nonempty 1 lines (relocate lines es) NL) as Q. destruct (patched_items 1 lines (relocate lines es)) as [|i it]; [congruence|]. cbn [flat_map] in Z. apply app_eq_nil in Z as [Z _]. destruct i; discriminate. }
  destruct Ol as [Ol On].
  assert (Pb : Forall plain back).
  { clear - S1 P. induction S1; auto; [inversion P; subst; constructor; auto|]. constructor; auto. split; [intros []|]. repeat split; apply index_none_iff; reflexivity. }
  assert (Nb : back <> []) by (intros ->; inversion S1; congruence).
  assert (Sb : split newline (text back) = back) by (apply split_join; auto; eapply Forall_impl; [|exact Pb]; intros x Hx; apply Hx).
  assert (FB : filter nonblank back = filter nonblank lines) by (symmetry; now apply spaced_nonblank).
  assert (F2 : Forall (edit_ok (length (filter nonblank back))) es) by now rewrite FB.
  destruct (relocate_ok back es B F2) as [B2 F3].
  assert (F3' : Forall (fun e => 1 <= l_line e <= length back /\ l_id e <> []) (relocate back es)) by (eapply Forall_impl; [|exact F3]; intros e (H1 & (H2 & _) & _); auto).
  destruct (C53_line_edits back (relocate back es) B2 F3') as [A2 _]. set (out2 := flat_map shown (patched_items 1 back (relocate back es))) in *.
  exists (text out), (text out2). split; auto. split.
  - unfold patch. rewrite U1. rewrite LC, Sb, FB, Le. cbn [option_map]. rewrite A2. reflexivity.
  - unfold same_code.
    assert (O2 : Forall one_line out2 /\ out2 <> []).
    { assert (OK : Forall item_ok (patched_items 1 back (relocate back es))) by now apply (items_ok (length back)).
      subst out2. split.
      - clear - OK. induction OK as [|i items Hi OK IH]; [constructor|]. cbn [flat_map]. apply Forall_app. split; auto. clear - Hi.
        assert (M : forall w id, one_line w -> id_ok id -> one_line (w ++ id ++ #">*/")).
        { intros w id Hw (_ & Hn & _) I. apply in_app_or in I as [I|I]; auto. apply in_app_or in I as [I|I]; auto. vm_compute in I. intuition discriminate. }
        destruct i as [l|id ls|id l]; cbn [shown app].
        + constructor; [apply Hi|constructor].
        + destruct Hi as [Hi Hl]. constructor; [apply M; auto; vm_compute; intuition discriminate|]. apply Forall_app. split; [eapply Forall_impl; [|exact Hl]; intros x Hx; apply Hx|].
          constructor; [apply M; auto; vm_compute; intuition discriminate|constructor].
        + destruct Hi as [Hi Hl]. repeat constructor; try (apply M; auto; vm_compute; intuition discriminate); try apply Hl; vm_compute; intuition discriminate.
      - intros Z. pose proof (patched_nonempty 1 back (relocate back es) Nb) as Q. destruct (patched_items 1 back (relocate back es)) as [|i it]; [congruence|]. cbn [flat_map] in Z. apply app_eq_nil in Z as [Z _]. destruct i; discriminate. }
    destruct O2 as [O2 N2]. unfold text. rewrite !split_join by auto.
    assert (R : forall e, edit_ok (length (filter nonblank lines)) e -> 1 <= l_line e <= length (filter nonblank lines)) by (intros e He; apply He).
    subst out out2. rewrite !relocate_blank, FB; auto; rewrite ?FB; eapply Forall_impl; [|exact F| |exact F]; auto.
Qed.
Print Assumptions C35_patch_again.
