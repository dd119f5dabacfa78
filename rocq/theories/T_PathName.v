(** * Directories named after other directories (C124, C125, C126) *)
From Coq Require Import Ascii String List Arith Bool Lia.
From Verif Require Import M_Str P_Str M_Version M_PathName.
Import ListNotations.
Open Scope nat_scope.
Open Scope list_scope.

(** ** C124 *)
(** Specification: the characters a name may have; UTF-8. *)
Definition ascii_name : list ascii := #".-_0123456789abcdefghijklmnopqrstuvwxyzABCDEFGHIJKLMNOPQRSTUVWXYZ".
Definition name_char (c : ascii) : Prop := In c ascii_name \/ 128 <= nat_of_ascii c.
Definition hex_digit (c : ascii) : Prop := In c #"0123456789abcdef".
Definition cont (c : ascii) : Prop := 128 <= nat_of_ascii c < 192.
Inductive utf8 : bytes -> Prop :=
  | u_nil : utf8 []
  | u_1 a r : nat_of_ascii a < 128 -> utf8 r -> utf8 (a :: r)
  | u_2 a b r : 192 <= nat_of_ascii a < 224 -> cont b -> utf8 r -> utf8 (a :: b :: r)
  | u_3 a b c r : 224 <= nat_of_ascii a < 240 -> cont b -> cont c -> utf8 r -> utf8 (a :: b :: c :: r)
  | u_4 a b c d r : 240 <= nat_of_ascii a < 248 -> cont b -> cont c -> cont d -> utf8 r -> utf8 (a :: b :: c :: d :: r).

Lemma kept_spec c : kept c = true <-> name_char c.
Proof.
  unfold name_char. split.
  - intros H. destruct (le_lt_dec 128 (nat_of_ascii c)) as [L|L]; [now right|left]. revert H. destruct c as [[] [] [] [] [] [] [] []]; try (exfalso; revert L; vm_compute; lia); vm_compute; try discriminate; intros _; repeat (try (left; reflexivity); right).
  - intros [I|L].
    + vm_compute in I. repeat (destruct I as [<- |I]; [vm_compute; reflexivity|]). destruct I.
    + unfold kept, code. replace (nat_of_ascii c <? 128) with false by (symmetry; apply Nat.ltb_ge; exact L). reflexivity.
Qed.
Lemma clean_chars p : Forall name_char (CleanSpecial p).
Proof.
  induction p as [|c p IH]; cbn [CleanSpecial]; [constructor|]. destruct (eqc c " "%char); [constructor; auto; left; vm_compute; auto|]. destruct (kept c) eqn:K; [|exact IH]. constructor; auto. now apply kept_spec.
Qed.
Lemma firstn_forall {A} (P : A -> Prop) n l : Forall P l -> Forall P (firstn n l).
Proof. intros H. revert n. induction H; intros [|n]; cbn; auto. Qed.
Lemma segs_spec left segs : Forall (fun s => Forall name_char s /\ 0 < length s <= 2) (short_segs left segs) /\ length (short_segs left segs) <= Nat.max left 1.
Proof.
  revert left. induction segs as [|seg segs IH]; intros left; cbn [short_segs]; [split; [constructor|cbn; lia]|].
  assert (F : Forall name_char (firstn 2 (CleanSpecial seg))) by apply firstn_forall, clean_chars. pose proof (firstn_le_length 2 (CleanSpecial seg)) as LE.
  destruct (firstn 2 (CleanSpecial seg)) as [|x s] eqn:E; [apply IH|]. assert (G : Forall name_char (x :: s) /\ 0 < length (x :: s) <= 2) by (split; [exact F|cbn [length] in *; lia]).
  destruct left as [|[|n]]; [split; [auto|cbn; lia]|split; [auto|cbn; lia]|]. destruct (IH (S n)) as [H1 H2]. split; [auto|]. cbn [length]. lia.
Qed.
Lemma join_bound l : Forall (fun s => Forall name_char s /\ 0 < length s <= 2) l -> Forall name_char (join #"_" l) /\ length (join #"_" l) <= 3 * length l - 1.
Proof.
  induction l as [|a l IH]; intros F; [split; [constructor|cbn; lia]|]. inversion F as [|? ? [Fa La] Fl]; subst. destruct (IH Fl) as [H1 H2]. destruct l as [|b l].
  - cbn [join length] in *. split; [exact Fa|lia].
  - change (join #"_" (a :: b :: l)) with (a ++ #"_" ++ join #"_" (b :: l)). split.
    + apply Forall_app. split; [auto|]. apply Forall_app. split; [|auto]. constructor; [left; vm_compute; auto|constructor].
    + rewrite !app_length. change (length #"_") with 1. cbn [length] in *. lia.
Qed.
Lemma hex_name c : hex_digit c -> name_char c.
Proof. intros H. left. vm_compute in H. repeat (destruct H as [<- |H]; [vm_compute; repeat (try (left; reflexivity); right)|]). destruct H. Qed.
Lemma name_not_slash c : name_char c -> c <> "/"%char.
Proof. intros [I|L] ->; [vm_compute in I; intuition discriminate|vm_compute in L; lia]. Qed.
Section Sum.
  Variable md5 : bytes -> bytes.
  (** md5 in hexadecimal *)
  Hypothesis md5_digits : forall s, Forall hex_digit (md5 s).
  Lemma sum_spec s : Forall hex_digit (getIdentSum md5 s) /\ length (getIdentSum md5 s) = 8.
  Proof.
    unfold getIdentSum. destruct (length (md5 s) <? 8) eqn:L; [apply Nat.ltb_lt in L|apply Nat.ltb_ge in L].
    - split; [|rewrite app_length, repeat_length; lia]. apply Forall_app. split; [|apply md5_digits]. apply Forall_forall. intros x I. apply repeat_spec in I as ->. now left.
    - split; [apply firstn_forall, md5_digits|]. rewrite firstn_length. lia.
  Qed.
  (** The name of any directory is one component of a path, of letters, digits, . _ - and
      characters beyond ASCII, at most 32 bytes longer than its prefix, and neither . nor .. *)
  Theorem C124_one_component (prefix path : bytes) :
    exists r, PathSum md5 prefix path = prefix ++ r /\ Forall name_char r /\ ~ In "/"%char r /\ 9 <= length r <= 32.
  Proof.
    exists (shortPath path ++ #"_" ++ getIdentSum md5 path). split; [reflexivity|]. destruct (sum_spec path) as [D L8]. unfold shortPath.
    destruct (segs_spec 8 (split "/"%char path)) as [S1 S2]. destruct (join_bound _ S1) as [J1 J2].
    assert (F : Forall name_char (join #"_" (short_segs 8 (split "/"%char path)) ++ #"_" ++ getIdentSum md5 path)).
    { apply Forall_app. split; [auto|]. apply Forall_app. split; [constructor; [left; vm_compute; auto|constructor]|]. eapply Forall_impl; [|exact D]. apply hex_name. }
    split; [exact F|]. split.
    - intros I. rewrite Forall_forall in F. now apply (name_not_slash _ (F _ I)).
    - rewrite !app_length, L8. change (length #"_") with 1. change (Nat.max 8 1) with 8 in S2. unfold bytes in *. lia.
  Qed.
  (** Two directories have the same name only if the first 8 digits of their sums agree (and their
      short forms). *)
  Theorem C124_distinct (prefix p q : bytes) : 8 <= length (md5 p) -> 8 <= length (md5 q) -> PathSum md5 prefix p = PathSum md5 prefix q ->
    firstn 8 (md5 p) = firstn 8 (md5 q) /\ shortPath p = shortPath q.
  Proof.
    intros Lp Lq E. unfold PathSum in E. apply app_inv_head in E. destruct (sum_spec p) as [_ A]. destruct (sum_spec q) as [_ B].
    assert (L : length (shortPath p ++ #"_") = length (shortPath q ++ #"_")) by (apply (f_equal (@length _)) in E; rewrite !app_length in *; lia).
    rewrite !app_assoc in E. destruct (app_cut _ _ _ _ E) as (x & X & Y); [lia|]. assert (x = []) as -> by (apply (f_equal (@length _)) in X; rewrite (app_length _ x) in X; destruct x; [reflexivity|cbn [length] in X; unfold bytes in *; lia]).
    rewrite app_nil_r in X. cbn [app] in Y. apply app_inj_tail in X as [X _]. split; [|congruence]. unfold getIdentSum in Y.
    apply Nat.ltb_ge in Lp, Lq. rewrite Lp, Lq in Y. exact Y.
  Qed.
  (** A directory under one whose name begins with a character of three bytes: the name is cut in
      the middle of it and is not UTF-8. *)
  Theorem C124_cut_refuted (prefix r : bytes) (a b c : ascii) : 224 <= nat_of_ascii a < 240 -> cont b -> cont c -> utf8 r -> utf8 prefix ->
    ~ In "/"%char r -> utf8 ("/"%char :: a :: b :: c :: r) /\ ~ utf8 (PathSum md5 prefix ("/"%char :: a :: b :: c :: r)).
  Proof.
    intros A B C R U N. split; [apply u_1; [vm_compute; lia|]; now apply u_3|].
    assert (NS : forall x : ascii, 128 <= nat_of_ascii x -> eqc x "/"%char = false /\ eqc x " "%char = false /\ kept x = true).
    { intros x L. split; [|split]; [| |apply kept_spec; now right]; unfold eqc; apply Ascii.eqb_neq; intros ->; vm_compute in L; lia. }
    destruct (NS a) as (a1 & a2 & a3); [lia|]. destruct (NS b) as (b1 & b2 & b3); [unfold cont in B; lia|]. destruct (NS c) as (c1 & c2 & c3); [unfold cont in C; lia|].
    assert (S0 : split "/"%char r = [r]). { clear - N. induction r as [|x r IH]; [reflexivity|]. cbn [split]. destruct (eqc x "/"%char) eqn:X; [apply Ascii.eqb_eq in X; subst; exfalso; apply N; now left|]. rewrite IH; [reflexivity|]. intros I. apply N. now right. }
    assert (S1 : shortPath ("/"%char :: a :: b :: c :: r) = [a; b]).
    { unfold shortPath. cbn [split]. rewrite a1, b1, c1, S0. change (eqc "/"%char "/"%char) with true. cbn [short_segs]. change (firstn 2 (CleanSpecial [])) with (@nil ascii). cbv iota.
      cbn [CleanSpecial]. rewrite a2, a3, b2, b3. cbn [firstn]. cbn [CleanSpecial short_segs]. reflexivity. }
    unfold PathSum. rewrite S1. intros H. revert H. clear - A B U.
    induction U as [|x r0 L U IH|x y r0 L1 L2 U IH|x y z r0 L1 L2 L3 U IH|x y z w r0 L1 L2 L3 L4 U IH]; cbn [app]; intros H.
    - inversion H; subst; unfold cont in *; try lia. match goal with K : 128 <= nat_of_ascii "_" < 192 |- _ => vm_compute in K; lia end.
    - inversion H; subst; unfold cont in *; try lia. auto.
    - inversion H; subst; unfold cont in *; try lia. auto.
    - inversion H; subst; unfold cont in *; try lia. auto.
    - inversion H; subst; unfold cont in *; try lia. auto.
  Qed.
End Sum.
(** Non-vacuity. *)
Example C124_ex : PathSum (fun _ => #"0123456789abcdef0123456789abcdef") #"go1.21_" #"/usr/local/go (old)/x" = #"go1.21_us_lo_go_x_01234567".
Proof. reflexivity. Qed.

(** ** C125 *)
(** Specification: a component of a cleaned absolute path; one made of the characters a name may have. *)
Definition component (c : bytes) : Prop := c <> [] /\ c <> #"." /\ c <> #".." /\ ~ In "/"%char c.
Lemma clean_same c : Forall name_char c -> CleanSpecial c = c.
Proof.
  induction 1 as [|x c N F IH]; [reflexivity|]. cbn [CleanSpecial]. apply kept_spec in N. rewrite N, IH. destruct (eqc x " "%char) eqn:E; [|reflexivity]. apply Ascii.eqb_eq in E. subst. discriminate N.
Qed.
Lemma clean_plain l : Forall component l -> forall at_, clean_onto at_ l = at_ ++ l.
Proof.
  induction 1 as [|c l (N1 & N2 & N3 & _) F IH]; intros at_; cbn [clean_onto]; [now rewrite app_nil_r|].
  apply eqs_false in N1, N2, N3. rewrite N1, N2, N3. cbn [orb]. rewrite IH, <- app_assoc. reflexivity.
Qed.
Lemma cov_plain tmp l : Forall component l -> Forall (Forall name_char) l -> mapCovDir tmp l = tmp ++ #"xgo" :: #"coverage" :: l.
Proof.
  intros C N. unfold mapCovDir. rewrite (map_ext_in _ (fun x => x)), map_id; [|intros x I; apply clean_same; rewrite Forall_forall in N; auto]. apply clean_plain.
  constructor; [|constructor; [|exact C]]; repeat split; try discriminate; vm_compute; intuition discriminate.
Qed.
(** Projects whose paths have only characters that are kept do not share their coverage, and theirs
    is below the directory for coverage. *)
Theorem C125_apart_partial (tmp p q : list bytes) : Forall component p -> Forall component q -> Forall (Forall name_char) p -> Forall (Forall name_char) q ->
  (mapCovDir tmp p = mapCovDir tmp q -> p = q) /\ exists below, mapCovDir tmp p = tmp ++ #"xgo" :: #"coverage" :: below.
Proof.
  intros Cp Cq Np Nq. rewrite !cov_plain by auto. split; [|now exists p]. intros E. apply app_inv_head in E. now inversion E.
Qed.
(** A space and an underscore are the same, and so are a character that is dropped and none. *)
Lemma clean_app a b : CleanSpecial (a ++ b) = CleanSpecial a ++ CleanSpecial b.
Proof. induction a as [|c a IH]; [reflexivity|]. cbn [app CleanSpecial]. rewrite IH. destruct (eqc c " "%char); [reflexivity|]. destruct (kept c); reflexivity. Qed.
Theorem C125_share_refuted (tmp l r : list bytes) (a b : bytes) (c : ascii) : ~ name_char c -> c <> " "%char ->
  mapCovDir tmp (l ++ (a ++ #" " ++ b) :: r) = mapCovDir tmp (l ++ (a ++ #"_" ++ b) :: r) /\ mapCovDir tmp (l ++ (a ++ c :: b) :: r) = mapCovDir tmp (l ++ (a ++ b) :: r).
Proof.
  intros N S. unfold mapCovDir. rewrite !map_app. cbn [map]. rewrite !clean_app. split; [reflexivity|].
  change (c :: b) with ([c] ++ b). rewrite clean_app. cbn [CleanSpecial]. destruct (eqc c " "%char) eqn:E; [apply Ascii.eqb_eq in E; congruence|]. destruct (kept c) eqn:K; [apply kept_spec in K; contradiction|]. reflexivity.
Qed.
(** And a project can have its coverage outside that directory. *)
Theorem C125_outside_refuted (tmp : list bytes) (b : bytes) : component b -> Forall name_char b ->
  component #".!." /\ mapCovDir tmp [#".!."; b] = tmp ++ [#"xgo"; b].
Proof.
  intros C N. split; [repeat split; try discriminate; vm_compute; intuition discriminate|]. unfold mapCovDir. cbn [map]. rewrite (clean_same b N). cbn [clean_onto].
  change (CleanSpecial #".!.") with #"..". change (eqs #"xgo" [] || eqs #"xgo" #".") with false. change (eqs #"xgo" #"..") with false. change (eqs #"coverage" [] || eqs #"coverage" #".") with false. change (eqs #"coverage" #"..") with false.
  change (eqs #".." [] || eqs #".." #".") with false. change (eqs #".." #"..") with true. cbv iota. rewrite removelast_last. destruct C as (N1 & N2 & N3 & _). apply eqs_false in N1, N2, N3. rewrite N1, N2, N3. cbn [orb]. rewrite <- app_assoc. reflexivity.
Qed.
Example C125_ex : mapCovDir [#"tmp"] [#"home"; #"me"; #"my-proj"] = [#"tmp"; #"xgo"; #"coverage"; #"home"; #"me"; #"my-proj"] /\ mapCovDir [#"tmp"] [#"a b"] = mapCovDir [#"tmp"] [#"a_b"].
Proof. split; reflexivity. Qed.

(** ** C126 *)
Section Control.
  Variables (Detail Profile : Type) (zero : Detail) (load : Profile -> option (option Detail)).
  Notation Refresh := (Refresh Detail Profile zero load). Notation GetCoverage := (GetCoverage Detail Profile zero). Notation Clear := (Clear Detail Profile).
  Inductive op := ORefresh | OClear | OProfile (p : option Profile).   (* a run replaces the profile *)
  Definition exec (o : op) (f : files Detail Profile) : files Detail Profile :=
    match o with ORefresh => match Refresh f with Some f' => f' | None => f end | OClear => Clear f | OProfile p => {| profile := p; result := result _ _ f |} end.
  (** What is shown is what the last refresh that did not fail computed, whatever happened since:
      the summary of the profile of that time, and nothing of one that was cleared before it. *)
  Theorem C126_last_refresh_partial (f : files Detail Profile) (later : list op) :
    ~ In ORefresh later ->
    match profile _ _ f with
    | Some p => match load p with None => True | Some d => forall f', Refresh f = Some f' -> GetCoverage (fold_left (fun f o => exec o f) later f') = Some (match d with Some d => d | None => zero end) end
    | None => forall f', Refresh f = Some f' -> GetCoverage (fold_left (fun f o => exec o f) later f') = Some zero
    end
    /\ (forall f', Refresh (Clear f) = Some f' -> GetCoverage (fold_left (fun f o => exec o f) later f') = Some zero).
  Proof.
    intros N. assert (K : forall f', GetCoverage (fold_left (fun f o => exec o f) later f') = GetCoverage f').
    { clear f. induction later as [|o later IH]; intros f'; [reflexivity|]. cbn [fold_left]. rewrite IH; [|intros I; apply N; now right]. destruct o as [| |p]; [exfalso; apply N; now left| |reflexivity].
      cbn [exec]. unfold M_PathName.Clear. destruct (profile _ _ f'); reflexivity. }
    split.
    - destruct (profile _ _ f) as [p|] eqn:P.
      + destruct (load p) as [d|] eqn:L; [|exact I]. intros f' E. rewrite K. unfold M_PathName.Refresh in E. rewrite P, L in E. destruct d as [d|]; injection E as <-; reflexivity.
      + intros f' E. rewrite K. unfold M_PathName.Refresh in E. rewrite P in E. injection E as <-. reflexivity.
    - intros f' E. rewrite K. unfold M_PathName.Refresh, M_PathName.Clear in E. destruct (profile _ _ f) as [p|] eqn:P; [|rewrite P in E]; injection E as <-; reflexivity.
  Qed.
  (** Clearing does not change what is shown. *)
  Theorem C126_clear_refuted (p : Profile) (d : Detail) : load p = Some (Some d) ->
    exists f, profile _ _ f = Some p /\ exists f', Refresh f = Some f' /\ profile _ _ (Clear f') = None /\ GetCoverage (Clear f') = Some d.
  Proof. intros L. exists {| profile := Some p; result := None |}. split; [reflexivity|]. eexists. unfold M_PathName.Refresh. cbn. rewrite L. split; [reflexivity|]. split; reflexivity. Qed.
End Control.
Print Assumptions C124_one_component. Print Assumptions C124_distinct. Print Assumptions C124_cut_refuted. Print Assumptions C125_apart_partial. Print Assumptions C125_share_refuted. Print Assumptions C125_outside_refuted. Print Assumptions C126_last_refresh_partial. Print Assumptions C126_clear_refuted.
