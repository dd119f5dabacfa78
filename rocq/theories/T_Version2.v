(** * Which texts are versions (C29, C40), without reference to the parser.
    Model: M_Version; specification: T_Version (go_text, sem_text) and below. *)
From Coq Require Import Ascii String List Arith Bool Lia.
From Verif Require Import M_Str P_Str M_Version T_Version.
Import ListNotations.
Open Scope nat_scope.

(** The character classes used in the specification of versions are the usual ones. *)
Definition the_digits : bytes := #"0123456789".
Definition the_lower : bytes := #"abcdefghijklmnopqrstuvwxyz".
Definition the_upper : bytes := #"ABCDEFGHIJKLMNOPQRSTUVWXYZ".

Definition mem (c : ascii) (l : bytes) : bool := existsb (fun d => if ascii_dec c d then true else false) l.
Lemma mem_in c l : mem c l = true <-> In c l.
Proof.
  unfold mem. rewrite existsb_exists. split.
  - intros (d & I & E). destruct (ascii_dec c d); [now subst|discriminate].
  - intros I. exists c. split; auto. destruct (ascii_dec c c); congruence.
Qed.
Lemma classes_compute : forall c, is_digit c = mem c the_digits /\ is_lower c = mem c the_lower /\ is_upper c = mem c the_upper.
Proof. intros [b0 b1 b2 b3 b4 b5 b6 b7]. destruct b0, b1, b2, b3, b4, b5, b6, b7; vm_compute; auto. Qed.
Lemma classes c : (is_digit c = true <-> In c the_digits) /\ (is_lower c = true <-> In c the_lower) /\ (is_upper c = true <-> In c the_upper).
Proof. destruct (classes_compute c) as (A & B & C). rewrite A, B, C, !mem_in. tauto. Qed.

Theorem C29_characters : forall c,
  (is_digit c = true <-> In c the_digits) /\ (is_lower c = true <-> In c the_lower).
Proof. intros c. destruct (classes c) as (A & B & _). auto. Qed.
Print Assumptions C29_characters.

Theorem C40_characters : forall c,
  is_ident_char c = true <-> In c (the_digits ++ the_lower ++ the_upper ++ #"-").
Proof.
  intros c. unfold is_ident_char. destruct (classes c) as (A & B & C). rewrite !orb_true_iff, A, B, C, !in_app_iff.
  rewrite eqc_eq. simpl. intuition.
Qed.
Print Assumptions C40_characters.

Lemma span_inv p x a b : span p x = (a, b) -> x = a ++ b /\ Forall (fun c => p c = true) a /\ match b with [] => True | c :: _ => p c = false end.
Proof.
  revert a b. induction x as [|c x IH]; intros a b S; simpl in S.
  - injection S as <- <-. auto.
  - destruct (p c) eqn:Dc.
    + destruct (span p x) as [a' b'] eqn:E. injection S as <- <-. destruct (IH _ _ eq_refl) as (-> & F & B). auto.
    + injection S as <- <-. auto.
Qed.

(** ** Go versions *)
Definition is_go_version (x : bytes) : Prop := exists v, go_ok v /\ go_text v = x.

Lemma parse_version_complete x : parse_version x = no_version \/ is_go_version x.
Proof.
  unfold parse_version. destruct (cut_int x) as [[a x1]|] eqn:C1; [|now left].
  apply cut_int_rest in C1 as [Na ->]. destruct x1 as [|c x1].
  - right. exists (GoMajor a). split; auto. simpl. now rewrite app_nil_r.
  - destruct (eqc c "."%char) eqn:Ec; [|now left]. apply eqc_eq in Ec. subst c. cbn [negb].
    destruct (cut_int x1) as [[b x2]|] eqn:C2; [|now left]. apply cut_int_rest in C2 as [Nb ->].
    destruct x2 as [|c x2].
    + right. exists (GoMinor a b). split; [split; auto|]. simpl. now rewrite app_nil_r.
    + destruct (eqc c "."%char) eqn:Ec.
      * apply eqc_eq in Ec. subst c. destruct (cut_int x2) as [[p x3]|] eqn:C3; [|now left]. apply cut_int_rest in C3 as [Np ->].
        destruct x3; [|now left]. right. exists (GoPatch a b p). split; [split; auto|]. simpl. now rewrite app_nil_r.
      * destruct (span (fun c => negb (is_digit c)) (c :: x2)) as [k r] eqn:S.
        destruct (forallb is_lower k) eqn:L; [|now left]. cbn [negb]. destruct k as [|k0 k]; [now left|].
        apply span_inv in S as (E & F & R). rewrite E.
        assert (Fl : Forall (fun c => is_lower c = true) (k0 :: k)) by (apply Forall_forall; now apply forallb_forall).
        destruct r as [|r0 r].
        -- right. exists (GoPre a b (k0 :: k) None). split; [|reflexivity]. simpl. repeat split; auto; try apply Na; try apply Nb; discriminate.
        -- destruct (cut_int (r0 :: r)) as [[p x3]|] eqn:C3; [|now left]. apply cut_int_rest in C3 as [Np ->].
           destruct x3; [|now left]. rewrite app_nil_r. right. exists (GoPre a b (k0 :: k) (Some p)).
           split; [|reflexivity]. simpl. repeat split; auto; try apply Na; try apply Nb; try apply Np; discriminate.
Qed.

(** Texts that are not written as a Go version are equal to each other and below every
    version. *)
Theorem C29_not_a_version :
  forall x, ~ is_go_version x ->
    (forall w, go_ok w -> compare_version x (go_text w) = Lt /\ compare_version (go_text w) x = Gt) /\
    (forall y, ~ is_go_version y -> compare_version x y = Eq).
Proof.
  intros x N. destruct (parse_version_complete x) as [E|]; [|contradiction]. split.
  - intros w Hw. split; [now apply C29_invalid_lowest|].
    pose proof (C29_invalid_lowest x w Hw E) as L. unfold compare_version in *. rewrite E in *.
    revert L. generalize (parse_version (go_text w)). intros [m1 m2 m3 m4 m5]. simpl.
    destruct m1; [|reflexivity]. destruct m2; [|reflexivity]. destruct m3; [|reflexivity]. destruct m4; [|reflexivity]. destruct m5; [discriminate|reflexivity].
  - intros y Ny. destruct (parse_version_complete y) as [Ey|]; [|contradiction]. apply C29_total_preorder. congruence.
Qed.
Print Assumptions C29_not_a_version.
Example C29_not_a_version_example : ~ is_go_version #"1.2.x" /\ is_go_version #"1.21rc2".
Proof.
  split.
  - intros (v & H & E). pose proof (parse_go_text v H) as P. rewrite E in P.
    assert (M : v_major (parse_version #"1.2.x") = []) by (vm_compute; reflexivity). rewrite P in M.
    destruct v as [a|a b|a b c|a b k n]; cbn [go_ok v_major] in *; [destruct H as (Nz & _)|destruct H as ((Nz & _) & _)..]; auto.
  - exists (GoPre #"1" #"21" #"rc" (Some #"2")). split; [|reflexivity]. simpl.
    repeat split; try discriminate; repeat constructor; intros r H; discriminate H.
Qed.

(** ** Semantic versions *)
(** Written in full, or short for .0.0 or .0. *)
Inductive sem_form := Full (v : sem_version) | ShortMinor (a b : bytes) | ShortMajor (a : bytes).
Definition form_ok (f : sem_form) : Prop :=
  match f with Full v => sem_ok v | ShortMinor a b => numeral a /\ numeral b | ShortMajor a => numeral a end.
Definition form_text (f : sem_form) : bytes :=
  match f with Full v => sem_text v | ShortMinor a b => #"v" ++ a ++ #"." ++ b | ShortMajor a => #"v" ++ a end.
Definition form_value (f : sem_form) : sem_version :=
  match f with Full v => v | ShortMinor a b => Sem a b #"0" [] [] | ShortMajor a => Sem a #"0" #"0" [] [] end.
Definition is_sem_version (x : bytes) : Prop := exists f, form_ok f /\ form_text f = x.

Lemma enc_sem pre build : 
  match pre with [] => [] | l => #"-" ++ join #"." l end ++ match build with [] => [] | l => #"+" ++ join #"." l end
  = enc "-"%char pre ++ enc "+"%char build.
Proof. destruct pre, build; reflexivity. Qed.

Lemma split_ok b l : forallb (ident_ok b) (split "."%char l) = true -> Forall (fun x => ident_ok b x = true) (split "."%char l) /\ join #"." (split "."%char l) = l.
Proof. intros H. split; [apply Forall_forall; now apply forallb_forall|]. apply (join_split "."%char). Qed.
Lemma ident_ok_pre x : ident_ok true x = true -> pre_ident x.
Proof.
  unfold ident_ok. destruct x as [|c x]; [discriminate|]. intros H. apply andb_prop in H as [F B].
  split; [discriminate|]. split; [apply Forall_forall; now apply forallb_forall|].
  intros Nm. split; [discriminate|]. split; [apply Forall_forall; now apply forallb_forall|].
  intros r E. injection E as -> ->. destruct r as [|d r]; auto. exfalso. cbn [andb] in B.
  apply negb_true_iff in B. unfold is_bad_num in B. unfold is_num in Nm. rewrite Nm in B. discriminate.
Qed.
Lemma ident_ok_build x : ident_ok false x = true -> x <> [] /\ Forall (fun c => is_ident_char c = true) x.
Proof.
  unfold ident_ok. destruct x as [|c x]; [discriminate|]. intros H. apply andb_prop in H as [F B].
  split; [discriminate|]. apply Forall_forall; now apply forallb_forall.
Qed.

Lemma parse_semver_complete x : parse_semver x = None \/ is_sem_version x.
Proof.
  unfold parse_semver. destruct x as [|c x]; [now left|]. destruct (eqc c "v"%char) eqn:Ev; [|now left]. apply eqc_eq in Ev. subst c. cbn [negb].
  destruct (cut_int x) as [[a x1]|] eqn:C1; [|now left]. apply cut_int_rest in C1 as [Na ->]. destruct x1 as [|c x1].
  { right. exists (ShortMajor a). split; auto. simpl. now rewrite app_nil_r. }
  destruct (eqc c "."%char) eqn:Ec; [|now left]. apply eqc_eq in Ec. subst c. cbn [negb].
  destruct (cut_int x1) as [[b x2]|] eqn:C2; [|now left]. apply cut_int_rest in C2 as [Nb ->]. destruct x2 as [|c x2].
  { right. exists (ShortMinor a b). split; [split; auto|]. simpl. now rewrite app_nil_r. }
  destruct (eqc c "."%char) eqn:Ec; [|now left]. apply eqc_eq in Ec. subst c. cbn [negb].
  destruct (cut_int x2) as [[p x3]|] eqn:C3; [|now left]. apply cut_int_rest in C3 as [Np ->].
  match goal with |- match ?t with _ => _ end = _ \/ _ => destruct t as [[pre x4]|] eqn:EP; [|now left] end.
  assert (P : exists l, x3 = enc "-"%char l ++ x4 /\ Forall pre_ident l).
  { destruct x3 as [|c x3]; [injection EP as <- <-; now exists []|]. destruct (eqc c "-"%char) eqn:Ed; [|injection EP as <- <-; now exists []].
    unfold parse_prerelease in EP. rewrite Ed in EP. apply eqc_eq in Ed. subst c.
    destruct (span _ x3) as [body rest] eqn:S. destruct (forallb (ident_ok true) (split "."%char body)) eqn:F; [|discriminate]. injection EP as <- <-.
    apply span_inv in S as (-> & _). apply split_ok in F as [F J]. exists (split "."%char body). split.
    - pose proof (split_nonempty "."%char body) as NE. rewrite <- J at 1. destruct (split "."%char body); [congruence|reflexivity].
    - eapply Forall_impl; [|exact F]. apply ident_ok_pre. }
  destruct P as (pl & -> & Fp).
  match goal with |- match ?t with _ => _ end = _ \/ _ => destruct t as [[bu x5]|] eqn:EB; [|now left] end.
  destruct x5; [|now left].
  assert (B : exists l, x4 = enc "+"%char l /\ Forall (fun x => x <> [] /\ Forall (fun c => is_ident_char c = true) x) l).
  { destruct x4 as [|c x4]; [now exists []|]. destruct (eqc c "+"%char) eqn:Ed; [|discriminate].
    unfold parse_build in EB. rewrite Ed in EB. apply eqc_eq in Ed. subst c.
    destruct (forallb (ident_ok false) (split "."%char x4)) eqn:F; [|discriminate]. 
    apply split_ok in F as [F J]. exists (split "."%char x4). split.
    - pose proof (split_nonempty "."%char x4) as NE. rewrite <- J at 1. destruct (split "."%char x4); [congruence|reflexivity].
    - eapply Forall_impl; [|exact F]. apply ident_ok_build. }
  destruct B as (bl & -> & Fb). right. exists (Full (Sem a b p pl bl)). split.
  - simpl. unfold sem_ok. simpl. auto.
  - destruct pl, bl; reflexivity.
Qed.

Lemma parse_form f : form_ok f -> exists b, parse_semver (form_text f) =
  Some (Semver (sm_major (form_value f)) (sm_minor (form_value f)) (sm_patch (form_value f)) (enc "-"%char (sm_pre (form_value f))) b).
Proof.
  destruct f as [v|a b|a]; simpl form_ok; simpl form_value; cbn [form_text].
  - intros H. rewrite (parse_sem_text v H). eauto.
  - intros [Ha Hb]. assert (E : #"v" ++ a ++ #"." ++ b = "v"%char :: a ++ "."%char :: (b ++ [])) by (rewrite app_nil_r; reflexivity).
    rewrite E. unfold parse_semver. rewrite eqc_refl. cbn [negb].
    rewrite cut_int_app by (auto; reflexivity). rewrite eqc_refl. cbn [negb]. rewrite cut_int_app by (auto; reflexivity). eexists. reflexivity.
  - intros Ha. assert (E : #"v" ++ a = "v"%char :: (a ++ [])) by (rewrite app_nil_r; reflexivity). rewrite E. unfold parse_semver. rewrite eqc_refl. cbn [negb].
    rewrite cut_int_app by (auto; reflexivity). eexists. reflexivity.
Qed.
Lemma value_ok f : form_ok f -> sem_ok (form_value f).
Proof.
  destruct f as [v|a b|a]; simpl; auto; unfold sem_ok; simpl; intros H.
  - destruct H. repeat split; auto; try (now apply H); try (now apply H0); try apply numeral_0.
  - repeat split; auto; try (now apply H); try apply numeral_0.
Qed.

(** Valid texts, short or in full, compare by their value. *)
Theorem C40_all_forms :
  forall f g, form_ok f -> form_ok g -> compare_semver (form_text f) (form_text g) = sem_cmp (form_value f) (form_value g).
Proof.
  intros f g Hf Hg. rewrite <- (C40_semver_agrees _ _ (value_ok f Hf) (value_ok g Hg)).
  unfold compare_semver. destruct (parse_form f Hf) as [b1 ->], (parse_form g Hg) as [b2 ->].
  rewrite (parse_sem_text _ (value_ok f Hf)), (parse_sem_text _ (value_ok g Hg)). reflexivity.
Qed.
Print Assumptions C40_all_forms.

(** All other texts are equal to each other and below every version. *)
Theorem C40_not_a_version :
  forall x, ~ is_sem_version x ->
    (forall w, is_sem_version w -> compare_semver x w = Lt /\ compare_semver w x = Gt) /\
    (forall y, ~ is_sem_version y -> compare_semver x y = Eq).
Proof.
  intros x N. destruct (parse_semver_complete x) as [E|]; [|contradiction]. unfold compare_semver. rewrite E. split.
  - intros w (f & Hf & <-). destruct (parse_form f Hf) as [b ->]. auto.
  - intros y Ny. destruct (parse_semver_complete y) as [->|]; [auto|contradiction].
Qed.
Print Assumptions C40_not_a_version.
Example C40_forms_example : is_sem_version #"v1.2" /\ is_sem_version #"v1.2.3-rc.1+001" /\ ~ is_sem_version #"v1.2.3-01".
Proof.
  split; [|split].
  - exists (ShortMinor #"1" #"2"). split; [|reflexivity]. simpl. repeat split; try discriminate; repeat constructor; intros r H; discriminate H.
  - exists (Full (Sem #"1" #"2" #"3" [#"rc"; #"1"] [#"001"])). split; [|reflexivity]. simpl. unfold sem_ok, pre_ident, numeral. simpl.
    repeat split; try discriminate; repeat constructor; try discriminate; intros; try discriminate.
  - intros (f & Hf & E). destruct (parse_form f Hf) as [b P]. rewrite E in P. vm_compute in P. discriminate P.
Qed.
