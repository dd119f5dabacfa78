(** * The clock functions of an instrumented GOROOT (C130) *)
From Coq Require Import Ascii String List Arith Bool Lia.
From Verif Require Import M_Str P_Str M_Patch P_Patch M_ApplyPatches T_Patch T_Patch4 M_Time.
Import ListNotations.
Open Scope nat_scope.
Open Scope list_scope.

(** ** Specification *)
(** [nowf name b]: the text of the function [name] with the body [b], without its last line break. *)
Definition func_text (name body : bytes) : bytes := #"func " ++ name ++ #"() Time {" ++ body ++ [newline] ++ #"}".
(** [time.go] is [a], the function Now with the body [b], and [c]; [b] ends at the first brace that is a line. *)
Definition has_now (content a b c : bytes) : Prop :=
  content = a ++ func_text #"Now" b ++ [newline] ++ c /\ ~ occurs #"func Now() Time {" a /\ ~ occurs #"func Now() Time {" b
  /\ forall b' c', b ++ newline :: #"}" ++ newline :: c = b' ++ newline :: #"}" ++ newline :: c' -> length b <= length b'.

Lemma occ_part w x y z : occurs w y -> occurs w (x ++ y ++ z). Proof. intros H. apply occurs_app_r, occurs_app_l, H. Qed.
Lemma has_suffix_app a b : has_suffix (a ++ b) b = true.
Proof. unfold has_suffix. rewrite rev_app_distr. generalize (rev b) (rev a). clear. intros p s. induction p as [|c p IH]; [destruct s; reflexivity|]. cbn. now rewrite eqc_refl, IH. Qed.
Lemma trim_app a b : trim_suffix (a ++ b) b = a.
Proof. unfold trim_suffix. rewrite has_suffix_app, app_length, Nat.add_sub. now apply firstn_app_exact. Qed.
Lemma slice_mid (a b c : bytes) i j : i = length a -> j = length a + length b -> slice (a ++ b ++ c) i j = b. Proof. apply slice_app. Qed.
Lemma now_unbordered : unbordered now_anchor. Proof. apply unbordered_first. simpl. intuition discriminate. Qed.
Lemma sleep_unbordered : unbordered sleep_anchor. Proof. apply unbordered_first. simpl. intuition discriminate. Qed.

(** ** C130 *)
(** time.go gets, at its end, between marks, a copy of Now under the name XgoRealNow. *)
Theorem C130_now (content a b c : bytes) : has_now content a b c -> has_suffix content [newline] = true ->
  edit_time_now content = Some (content ++ begin_mark #"add_xgo_real_time_now" ++ func_text #"XgoRealNow" b ++ end_mark #"add_xgo_real_time_now").
Proof.
  intros (E & Na & Nb & L) HS. unfold edit_time_now. unfold bytes in *.
  assert (E1 : content = a ++ now_anchor ++ b ++ end_anchor ++ c) by (rewrite E; unfold func_text, now_anchor, end_anchor; change #"func Now() Time {" with (#"func " ++ #"Now" ++ #"() Time {"); rewrite <- !app_assoc; reflexivity).
  assert (I1 : index content now_anchor = Some (length a)) by (rewrite E1; apply index_unbordered; [apply now_unbordered|exact Na]). rewrite I1. cbv zeta.
  assert (K : skipn (length a + length now_anchor) content = b ++ end_anchor ++ c). { rewrite E1, (app_assoc a). apply skipn_app_exact. now rewrite app_length. }
  rewrite K. assert (I2 : index (b ++ end_anchor ++ c) end_anchor = Some (length b)).
  { apply (index_least _ _ b c); [reflexivity|]. intros b' c' F. apply (L b' c'). unfold end_anchor in F. rewrite <- !app_comm_cons, <- !app_assoc in F. exact F. }
  rewrite I2, HS. assert (SL : slice content (length a) (length b + (length a + length now_anchor + length end_anchor)) = now_anchor ++ b ++ end_anchor).
  { rewrite E1. replace (a ++ now_anchor ++ b ++ end_anchor ++ c) with (a ++ (now_anchor ++ b ++ end_anchor) ++ c) by (now rewrite <- !app_assoc). apply slice_app; [reflexivity|]. rewrite !app_length. lia. }
  rewrite SL. assert (R : forall fuel new, replace_all (S (S fuel)) (now_anchor ++ b ++ end_anchor) now_anchor new = new ++ b ++ end_anchor).
  { intros fuel new. cbn [replace_all]. rewrite index_here. cbn [firstn app]. rewrite (skipn_app_exact now_anchor) by reflexivity. f_equal. rewrite (proj2 (index_none_iff _ _)); [reflexivity|].
    unfold end_anchor. apply not_barrier; [simpl; intuition discriminate|discriminate|exact Nb|]. intros O. apply occurs_in in O. simpl in O. intuition discriminate. }
  assert (LN : exists fuel, S (length (now_anchor ++ b ++ end_anchor)) = S (S fuel)) by (rewrite app_length; eexists; reflexivity). destruct LN as [fuel ->]. rewrite R.
  replace ((#"func " ++ XGO_REAL_NOW ++ #"() Time {") ++ b ++ end_anchor) with (func_text #"XgoRealNow" b ++ [newline]).
  2:{ unfold func_text, end_anchor, XGO_REAL_NOW. rewrite <- !app_assoc. reflexivity. }
  rewrite trim_app. reflexivity.
Qed.
(** sleep.go: Sleep becomes a function that can be mocked, and calls XgoRealSleep, which is declared without a body as
    Sleep was; runtime/time.go: the runtime's function is linked to that name. *)
Theorem C130_sleep (a c : bytes) : ~ occurs #"func Sleep(d Duration)" a ->
  edit_time_sleep (a ++ #"func Sleep(d Duration)" ++ c) = Some (a ++ begin_mark #"xgo_time_sleep" ++ #"/*old:func Sleep(d Duration)*/" ++ #"func XgoRealSleep(d Duration);func /*xgo_instrumented*/Sleep(d Duration){ XgoRealSleep(d); }" ++ end_mark #"xgo_time_sleep" ++ c).
Proof.
  intros N. unfold edit_time_sleep. change #"func Sleep(d Duration)" with sleep_anchor in *. rewrite index_unbordered; [|apply sleep_unbordered|exact N]. rewrite firstn_app_exact by reflexivity.
  rewrite (app_assoc a sleep_anchor c), skipn_app_exact by now rewrite app_length. reflexivity.
Qed.
Theorem C130_runtime_sleep (a c : bytes) : ~ occurs #"//go:linkname timeSleep" a ->
  edit_runtime_sleep (a ++ #"//go:linkname timeSleep time.Sleep" ++ c) = Some (a ++ #"/*<next-line-original xgo_runtime_time_linkname>//go:linkname timeSleep time.Sleep</next-line-original>*/" ++ [newline] ++ #"//go:linkname timeSleep time.XgoRealSleep" ++ c).
Proof.
  intros N. unfold edit_runtime_sleep. assert (I : index (a ++ link_anchor ++ c) link_anchor = Some (length a)).
  { change link_anchor with (#"//go:linkname timeSleep" ++ #" time.Sleep"). apply index_longer; [|exact N]. change #"//go:linkname timeSleep" with (#"//go:linkname timeSlee" ++ #"p"). apply unbordered_last. simpl. intuition discriminate. }
  assert (K : skipn (length a + length link_anchor) (a ++ link_anchor ++ c) = c) by (rewrite (app_assoc a link_anchor c); apply skipn_app_exact; now rewrite app_length).
  change #"//go:linkname timeSleep time.Sleep" with link_anchor. rewrite I, K, firstn_app_exact by reflexivity. reflexivity.
Qed.
(** A file without marks, and with no "old" comment in Now, is restored by cleaning. *)
Lemma fine_text w b : w <> [] -> ~ In "{"%char w -> ~ In newline w -> ~ occurs w #"func XgoRealNow() Time " -> ~ occurs w b -> ~ occurs w #"}" -> ~ occurs w (func_text #"XgoRealNow" b).
Proof.
  intros NE N1 N2 H1 H2 H3. assert (Q : func_text #"XgoRealNow" b = #"func XgoRealNow() Time " ++ "{"%char :: (b ++ newline :: #"}")) by (unfold func_text; change #"() Time {" with (#"() Time " ++ ["{"%char]); rewrite <- !app_assoc; reflexivity).
  rewrite Q. apply not_barrier; auto. apply not_barrier; auto.
Qed.
Lemma not_in_occ w s c x : w = c :: x -> ~ In c s -> ~ occurs w s. Proof. intros -> N O. apply occurs_in in O. auto. Qed.
Theorem C130_restored (content r : bytes) : markless content ->
  (forall a b c, has_now content a b c -> has_suffix content [newline] = true -> ~ occurs #"/*old:" b -> edit_time_now content = Some r -> clean_patch r = Some content)
  /\ (forall a c, content = a ++ #"func Sleep(d Duration)" ++ c -> ~ occurs #"func Sleep(d Duration)" a -> edit_time_sleep content = Some r -> clean_patch r = Some content)
  /\ (forall a c, content = a ++ #"//go:linkname timeSleep time.Sleep" ++ newline :: c -> ~ occurs #"//go:linkname timeSleep" a -> edit_runtime_sleep content = Some r -> clean_patch r = Some content).
Proof.
  intros M. pose proof M as (M1 & M2 & M3).
  assert (B : ~ occurs #"/*<begin" content) by (intros O; apply M1; change #"/*<begin" with (#"/*" ++ #"<begin") in O; now apply occurs_suffix in O).
  split; [|split].
  - intros a b c H HS NO E. rewrite (C130_now _ _ _ _ H HS) in E. apply some_inj in E. subst r. destruct H as (E & _).
    assert (OB : forall w, occurs w b -> occurs w content). { intros w O. rewrite E. unfold func_text. apply occ_part. rewrite !app_assoc. apply occurs_app_l, occurs_app_l. apply occurs_app_r. exact O. }
    set (k := {| k_label := #"add_xgo_real_time_now"; k_old := []; k_between := func_text #"XgoRealNow" b |}).
    replace (content ++ begin_mark #"add_xgo_real_time_now" ++ func_text #"XgoRealNow" b ++ end_mark #"add_xgo_real_time_now") with (render (content, [(k, [])])) by (rewrite render_cons; unfold render, render_blk; cbn [fst snd render_list map concat k_label k_between k]; now rewrite <- ?app_assoc, ?app_nil_r).
    rewrite clean_doc; cbn [fst snd]; unfold origin; cbn [fst snd origin_list map concat k_old k app]; rewrite ?app_nil_r; auto.
    constructor; [|constructor]. split; [split; [|split]|]; cbn [k_label k_between k_old k fst].
    + unfold label_ok. apply Forall_forall. intros x X Y. simpl in X, Y. intuition congruence.
    + apply end_word_free. apply fine_text; try discriminate; try (simpl; intuition discriminate); try (apply (not_in_occ _ _ "<"%char #"end"); [reflexivity|simpl; intuition discriminate]); intros O; now apply M2, OB.
    + apply extract_old_none. apply fine_text; try discriminate; try (simpl; intuition discriminate); try (apply (not_in_occ _ _ "/"%char #"*old:"); [reflexivity|simpl; intuition discriminate]); exact NO.
    + apply fine_text; try discriminate; try (simpl; intuition discriminate); try (apply (not_in_occ _ _ "<"%char #"next-line-original "); [reflexivity|simpl; intuition discriminate]); intros O; now apply M3, OB.
  - intros a c E N H. subst content. rewrite C130_sleep in H by exact N. apply some_inj in H. subst r.
    set (k := {| k_label := #"xgo_time_sleep"; k_old := #"func Sleep(d Duration)"; k_between := #"/*old:func Sleep(d Duration)*/" ++ #"func XgoRealSleep(d Duration);func /*xgo_instrumented*/Sleep(d Duration){ XgoRealSleep(d); }" |}).
    match goal with |- clean_patch ?x = _ => replace x with (render (a, [(k, c)])) end.
    2:{ rewrite render_cons. unfold render, render_blk. cbn [fst snd render_list map concat k_label k_between k]. now rewrite <- ?app_assoc, ?app_nil_r. }
    assert (EO : origin (a, [(k, c)]) = a ++ #"func Sleep(d Duration)" ++ c) by (unfold origin; cbn [fst snd origin_list map concat k_old k]; now rewrite app_nil_r).
    rewrite clean_doc; cbn [fst snd]; rewrite ?EO; auto.
    constructor; [|constructor]. split; [split; [|split]|]; cbn [k_label k_between k_old k fst].
    + unfold label_ok. apply Forall_forall. intros x X Y. simpl in X, Y. intuition congruence.
    + apply index_none_iff. vm_compute. reflexivity.
    + vm_compute. reflexivity.
    + apply index_none_iff. vm_compute. reflexivity.
  - intros a c E N H. subst content. rewrite C130_runtime_sleep in H by exact N. apply some_inj in H. subst r.
    set (d := {| d_pre := a; d_name := #"xgo_runtime_time_linkname"; d_old := #"//go:linkname timeSleep time.Sleep"; d_new := #"//go:linkname timeSleep time.XgoRealSleep" |}).
    exact (C31_directives _ _ [d] (newline :: c) M (p_start _) eq_refl ltac:(cbn [whole_lines d_name d_old d_new d]; split; [simpl; intuition discriminate|]; split; [apply index_none_iff; vm_compute; reflexivity|]; split; [simpl; intuition discriminate|]; split; [right; eexists; reflexivity|exact I])).
Qed.
(** So instrumenting again, whatever marks the file carried, gives the same file. *)
Lemma again (cb : bytes -> option bytes) (content file r : bytes) : (forall c, cb content = Some c -> clean_patch c = Some content) -> clean_patch file = Some content -> edit_file cb file = Some r -> edit_file cb r = Some r.
Proof.
  intros H C E. unfold edit_file in E. rewrite C in E. destruct (cb content) as [c|] eqn:K; [|discriminate]. specialize (H c eq_refl). destruct (eqs c content) eqn:Q; apply some_inj in E; subst r; unfold edit_file.
  - now rewrite C, K, Q.
  - now rewrite H, K, Q.
Qed.
Theorem C130_again (content file r : bytes) : markless content -> clean_patch file = Some content ->
  (forall a b c, has_now content a b c -> has_suffix content [newline] = true -> ~ occurs #"/*old:" b -> edit_file edit_time_now file = Some r -> edit_file edit_time_now r = Some r)
  /\ (forall a c, content = a ++ #"func Sleep(d Duration)" ++ c -> ~ occurs #"func Sleep(d Duration)" a -> edit_file edit_time_sleep file = Some r -> edit_file edit_time_sleep r = Some r)
  /\ (forall a c, content = a ++ #"//go:linkname timeSleep time.Sleep" ++ newline :: c -> ~ occurs #"//go:linkname timeSleep" a -> edit_file edit_runtime_sleep file = Some r -> edit_file edit_runtime_sleep r = Some r).
Proof.
  intros M C. split; [|split].
  - intros a b c H HS NO. apply (again _ content); [|exact C]. intros x. exact (proj1 (C130_restored content x M) a b c H HS NO).
  - intros a c H N. apply (again _ content); [|exact C]. intros x. exact (proj1 (proj2 (C130_restored content x M)) a c H N).
  - intros a c H N. apply (again _ content); [|exact C]. intros x. exact (proj2 (proj2 (C130_restored content x M)) a c H N).
Qed.
(** What follows the directive on its line is lost when the file is cleaned. *)
Theorem C130_line_refuted : exists content r, markless content /\ edit_runtime_sleep content = Some r /\ clean_patch r = Some (#"//go:linkname timeSleep time.Sleep" ++ [newline]) /\ content = #"//go:linkname timeSleep time.Sleep // for time" ++ [newline].
Proof. exists (#"//go:linkname timeSleep time.Sleep // for time" ++ [newline]). eexists. split; [unfold markless; repeat split; apply index_none_iff; vm_compute; reflexivity|]. split; [vm_compute; reflexivity|]. split; [vm_compute; reflexivity|reflexivity]. Qed.
(** Non-vacuity *)
Definition a_time : bytes := #"package time" ++ [newline] ++ #"func Now() Time {" ++ [newline] ++ #" if x {" ++ [newline] ++ #" }" ++ [newline] ++ #" return t" ++ [newline] ++ #"}" ++ [newline] ++ #"func Unix() {" ++ [newline] ++ #"}" ++ [newline].
Example C130_ex : exists r, edit_file edit_time_now a_time = Some r /\ r <> a_time /\ clean_patch r = Some a_time /\ edit_file edit_time_now r = Some r /\ occurs (func_text #"XgoRealNow" ([newline] ++ #" if x {" ++ [newline] ++ #" }" ++ [newline] ++ #" return t")) r.
Proof. eexists. split; [vm_compute; reflexivity|]. split; [vm_compute; discriminate|]. split; [vm_compute; reflexivity|]. split; [vm_compute; reflexivity|]. exists (a_time ++ begin_mark #"add_xgo_real_time_now"), (end_mark #"add_xgo_real_time_now"). vm_compute. reflexivity. Qed.
Print Assumptions C130_now. Print Assumptions C130_sleep. Print Assumptions C130_runtime_sleep. Print Assumptions C130_restored. Print Assumptions C130_again. Print Assumptions C130_line_refuted.
