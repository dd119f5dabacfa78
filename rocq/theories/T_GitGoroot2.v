(** * C93, C94: which Go version is meant; what is shown of a command *)
From Coq Require Import Ascii String List Arith Bool Lia.
From Verif Require Import M_Str P_Str M_Version M_Module M_GitGoroot T_Version T_Version2 T_PatchFile T_Quote.
Import ListNotations.
Open Scope nat_scope.
Open Scope list_scope.
Local Notation quotec := """"%char.

(** ** Specification *)
(** A version may be written with white space around it and with "go" before it. *)
Definition asks (x t : bytes) : Prop :=
  exists y, stripped x y /\ y <> [] /\ (y = #"go" ++ t \/ y = t /\ forall r, y <> #"go" ++ r).
(** A line of the download page lists a version: it is a div whose first id that begins
    with go ends with the version. *)
Definition lists (l v : bytes) : Prop :=
  exists s a b, stripped l s /\ (exists r, s = #"<div " ++ r) /\
    s = a ++ #"id=""go" ++ v ++ #"""" ++ b /\ first_after a #"id=""go" /\ ~ In quotec v /\ v <> [].
Inductive page_lists : list bytes -> list bytes -> Prop :=
| page_end : page_lists [] []
| page_version l v ls vs : lists l v -> page_lists ls vs -> page_lists (l :: ls) (v :: vs)
| page_other l ls vs : (forall v, ~ lists l v) -> page_lists ls vs -> page_lists (l :: ls) vs.
(** Patch releases and prereleases of a.b. *)
Definition is_patch (a b v : bytes) : Prop := exists c, numeral c /\ v = go_text (GoPatch a b c).
Definition is_prerelease (a b v : bytes) : Prop := exists k n, go_ok (GoPre a b k n) /\ v = go_text (GoPre a b k n).

(** ** Proofs: choosing the latest *)
Lemma latest_spec (ok : bytes -> bool) : (forall v : bytes, ok v = true -> v <> []) -> forall all l,
  let r := latest_of ok all l in
  (r = l \/ In r all /\ ok r = true) /\ (l <> [] -> r <> [] /\ compare_version l r <> Gt) /\
  (forall v, In v all -> ok v = true -> r <> [] /\ compare_version v r <> Gt).
Proof.
  intros NE. destruct (proj1 C29_total_preorder) as (P1 & P2 & P3 & _).
  induction all as [|v all IH]; intros l; cbn [latest_of].
  - split; auto. split; [|intros v []]. intros N. split; auto. rewrite P1. discriminate.
  - set (l' := if ok v then _ else l). destruct (IH l') as (A & B & C). set (r := latest_of ok all l') in *. cbn zeta.
    assert (K : (l' = l \/ l' = v /\ ok v = true) /\ (l <> [] -> l' <> [] /\ compare_version l l' <> Gt) /\ (ok v = true -> l' <> [] /\ compare_version v l' <> Gt)).
    { subst l'. destruct (ok v) eqn:O; [|repeat split; auto; try discriminate; rewrite P1; discriminate].
      destruct (eqs l []) eqn:E.
      - apply eqs_eq in E. subst l. cbn [orb]. repeat split; auto; try congruence; rewrite P1; discriminate.
      - cbn [orb]. destruct (compare_version v l) eqn:CV; (repeat split; auto); try (rewrite P1; discriminate); try congruence; try (intros ->; discriminate E).
        rewrite P2, CV. discriminate. }
    destruct K as (K1 & K2 & K3).
    assert (TR : forall x y z, compare_version x y <> Gt -> compare_version y z <> Gt -> compare_version x z <> Gt) by exact P3.
    split; [|split].
    + destruct A as [A|[A1 A2]]; [|right; split; [right; auto|auto]]. destruct K1 as [K1|[K1 K4]]; [left; congruence|]. right. rewrite A, K1. split; [left; auto|auto].
    + intros N. destruct (K2 N) as [N' Q]. destruct (B N') as [N2 Q2]. split; auto. eapply TR; eauto.
    + intros x [<-|I] O; [|auto]. destruct (K3 O) as [N' Q]. destruct (B N') as [N2 Q2]. split; auto. eapply TR; eauto.
Qed.
(** ** Proofs: the texts of versions *)
Lemma gover_eqb_iff a b : gover_eqb a b = true <-> a = b.
Proof.
  unfold gover_eqb. rewrite !andb_true_iff, !eqs_eq. destruct a, b. cbn. split; [intros ((((-> & ->) & ->) & ->) & ->); reflexivity|intros H; injection H as -> -> -> -> ->; auto].
Qed.
Lemma valid_text v : go_ok v -> is_valid_version (go_text v) = true.
Proof.
  intros H. unfold is_valid_version. destruct (gover_eqb _ _) eqn:E; auto. apply gover_eqb_iff in E. rewrite (parse_go_text v H) in E.
  assert (K : forall a, numeral a -> a <> []) by (intros a N; apply N).
  destruct v; injection E as E; cbn in H; exfalso; apply (K a); tauto.
Qed.
Lemma valid_inv x : is_valid_version x = true -> exists v, go_ok v /\ go_text v = x.
Proof.
  unfold is_valid_version. destruct (parse_version_complete x) as [E|E]; auto. rewrite E. discriminate.
Qed.
Lemma numeral_chars a : numeral a -> Forall (fun c => is_digit c = true) a. Proof. intros N. apply N. Qed.
Lemma numeral_dot a : numeral a -> ~ In "."%char a.
Proof. intros (_ & F & _) I. rewrite Forall_forall in F. apply F in I. discriminate. Qed.
Lemma opt_dot n : match n with Some n => numeral n | None => True end -> ~ In "."%char (match n with Some n => n | None => [] end).
Proof. destruct n; [apply numeral_dot|intros _ []]. Qed.
Lemma lower_dot k : Forall (fun c => is_lower c = true) k -> ~ In "."%char k.
Proof. intros F I. rewrite Forall_forall in F. apply F in I. discriminate. Qed.
Lemma dots v : go_ok v -> split "."%char (go_text v) =
  match v with
  | GoMajor a => [a] | GoMinor a b => [a; b] | GoPatch a b c => [a; b; c]
  | GoPre a b k n => [a; b ++ k ++ match n with Some n => n | None => [] end]
  end.
Proof.
  assert (D : forall a r, numeral a -> split "."%char (a ++ #"." ++ r) = a :: split "."%char r) by (intros a r N; apply (split_cons "."%char a r), numeral_dot, N).
  destruct v as [a|a b|a b c|a b k n]; cbn [go_ok go_text].
  - intros N. apply split_noc, numeral_dot, N.
  - intros [A B]. rewrite D by auto. f_equal. apply split_noc, numeral_dot, B.
  - intros (A & B & C). rewrite !D by auto. do 2 f_equal. apply split_noc, numeral_dot, C.
  - intros (A & B & _ & K & N). rewrite D by auto. f_equal. apply split_noc. rewrite !in_app_iff. pose proof (numeral_dot b B). pose proof (lower_dot k K). pose proof (opt_dot n N). tauto.
Qed.
(** A version that begins with a.b. is a patch release of a.b. *)
Lemma patch_inv a b v r : numeral a -> numeral b -> go_ok v -> go_text v = a ++ #"." ++ b ++ #"." ++ r -> exists c, numeral c /\ v = GoPatch a b c.
Proof.
  intros A B V E. pose proof (dots v V) as D. rewrite E in D.
  change (a ++ #"." ++ b ++ #"." ++ r) with (a ++ "."%char :: b ++ "."%char :: r) in D. rewrite !split_cons in D by (apply numeral_dot; auto).
  pose proof (split_nonempty "."%char r) as NE. destruct v as [a'|a' b'|a' b' c'|a' b' k n].
  - injection D as _ D. discriminate D.
  - injection D as _ _ D. contradiction.
  - injection D as -> -> D. exists c'. split; [apply V|reflexivity].
  - injection D as _ _ D. contradiction.
Qed.
(** A version that goes on after a.b with something that is no digit is one too, or a prerelease of a.b. *)
Lemma prerelease_inv a b v x r : numeral a -> numeral b -> go_ok v -> is_digit x = false -> x <> "."%char -> go_text v = a ++ #"." ++ b ++ x :: r -> exists k n, v = GoPre a b k n.
Proof.
  intros A B V X NX E. pose proof (dots v V) as D. rewrite E in D. change (a ++ #"." ++ b ++ x :: r) with (a ++ "."%char :: b ++ x :: r) in D. rewrite split_cons in D by (apply numeral_dot; auto).
  assert (S : forall d, span is_digit (b ++ x :: d) = (b, x :: d)) by (intros d; apply span_app; [apply B|exact X]).
  destruct v as [a'|a' b'|a' b' c'|a' b' k n].
  - injection D as _ D. now apply split_nonempty in D.
  - injection D as -> D. exfalso. assert (J : b ++ x :: r = b') by (rewrite <- (join_split "."%char (b ++ x :: r)), D; reflexivity).
    destruct V as [_ V]. apply numeral_chars in V. rewrite <- J in V. apply Forall_app in V as [_ V]. inversion V; congruence.
  - injection D as -> D. exfalso. assert (J : b ++ x :: r = b' ++ "."%char :: c') by (rewrite <- (join_split "."%char (b ++ x :: r)), D; reflexivity).
    destruct V as (_ & V & _). pose proof (S r) as S1. rewrite J, span_app in S1 by (try apply V; reflexivity). injection S1 as _ S2. congruence.
  - injection D as -> D. assert (J : b ++ x :: r = b' ++ k ++ match n with Some n => n | None => [] end) by (rewrite <- (join_split "."%char (b ++ x :: r)), D; reflexivity).
    destruct V as (_ & V & NK & K & _). pose proof (S r) as S1. rewrite J, span_app in S1.
    + injection S1 as -> _. eauto.
    + apply V.
    + destruct k as [|k0 k]; [congruence|]. cbn. inversion K; subst. now apply lower_not_digit.
Qed.
Lemma pre_text a b k n : go_ok (GoPre a b k n) -> exists x r, is_digit x = false /\ x <> "."%char /\ go_text (GoPre a b k n) = (a ++ #"." ++ b) ++ x :: r.
Proof.
  intros (_ & _ & N & K & _). destruct k as [|x k]; [congruence|]. inversion K; subst. eexists x, _. split; [now apply lower_not_digit|]. split; [intros ->; discriminate|].
  cbn [go_text]. rewrite <- !app_assoc. reflexivity.
Qed.
Lemma prerelease_of_iff a b v : numeral a -> numeral b -> (forall r, v <> a ++ #"." ++ b ++ #"." ++ r) -> prerelease_of (go_text (GoMinor a b)) v = true <-> is_prerelease a b v.
Proof.
  intros A B NP. unfold prerelease_of. split.
  - intros H. apply andb_true_iff in H as [P H]. apply has_prefix_iff in P as [r ->]. rewrite skipn_app_exact in H by reflexivity. destruct r as [|x r]; [discriminate|]. apply andb_true_iff in H as [D V]. apply negb_true_iff in D.
    apply valid_inv in V as (v & V & E). cbn [go_text] in E. rewrite <- !app_assoc in E.
    destruct (eqc x "."%char) eqn:X. { apply eqc_eq in X. subst x. elim (NP r). cbn [go_text]. rewrite <- !app_assoc. reflexivity. }
    apply eqc_neq in X. destruct (prerelease_inv a b v x r A B V D X) as (k & n & ->); [exact E|]. exists k, n. split; auto. rewrite E. cbn [go_text]. rewrite <- !app_assoc. reflexivity.
  - intros (k & n & V & ->). destruct (pre_text a b k n V) as (x & r & D & X & E). change (go_text (GoMinor a b)) with (a ++ #"." ++ b). rewrite E at 1 2. rewrite has_prefix_app, skipn_app_exact by reflexivity. rewrite D, valid_text by auto. reflexivity.
Qed.

(** ** Proofs: resolving *)
Lemma asks_read x t : asks x t -> trim_space x <> [] /\ trim_prefix (trim_space x) #"go" = t.
Proof.
  intros (y & S & N & H). apply trim_space_iff in S. rewrite S. split; auto. unfold trim_prefix. destruct H as [->|[-> H]].
  - rewrite has_prefix_app. reflexivity.
  - destruct (has_prefix t #"go") eqn:P; auto. apply has_prefix_iff in P as [r P]. now elim (H r).
Qed.
(** What follows reading the text. *)
Definition resolve_text (page : option (list bytes)) (version : bytes) : option bytes :=
  let parts := split "."%char version in
  if is_valid_version version && ((3 <=? length parts) || has_prerelease_suffix (last parts [])) then Some (#"go" ++ version)
  else if length parts <? 2 then None
  else if length parts =? 3 then if is_valid_version version then Some (#"go" ++ version) else None
  else if negb (length parts =? 2) then None
  else
    match page with
    | None => None
    | Some all =>
        match latest_of (fun v => has_prefix v (version ++ #".")) all [] with
        | _ :: _ => Some (#"go" ++ latest_of (fun v => has_prefix v (version ++ #".")) all [])
        | [] => match latest_of (prerelease_of version) all [] with [] => None | _ :: _ => Some (#"go" ++ latest_of (prerelease_of version) all []) end
        end
    end.
Lemma resolve_asks page x t : asks x t -> resolve_version page x = resolve_text page t.
Proof.
  intros H. apply asks_read in H as [N E]. unfold resolve_version, resolve_text. cbv zeta. destruct (trim_space x); [congruence|]. rewrite E.
  destruct (_ && _); auto. destruct (_ <? 2); auto. destruct (_ =? 3); auto. destruct (negb _); auto. destruct page; auto.
  destruct (latest_of _ _ []); auto. destruct (latest_of _ _ []); auto.
Qed.
Lemma suffix_digits s : Forall (fun c => is_digit c = true) s -> has_prerelease_suffix s = false.
Proof. unfold has_prerelease_suffix. induction 1 as [|c s H F IH]; auto. cbn [existsb]. now rewrite H. Qed.
Lemma suffix_pre b k n : k <> [] -> Forall (fun c => is_lower c = true) k -> has_prerelease_suffix (b ++ k ++ n) = true.
Proof.
  intros N K. destruct k as [|c k]; [congruence|]. inversion K; subst. unfold has_prerelease_suffix. apply existsb_exists. exists c. rewrite lower_not_digit by auto. split; auto. rewrite in_app_iff. right. now left.
Qed.
(** A version that is given in full is taken as it is. *)
Theorem C93_full_version page x v : asks x (go_text v) -> go_ok v -> (forall a, v <> GoMajor a) -> (forall a b, v <> GoMinor a b) -> resolve_version page x = Some (#"go" ++ go_text v).
Proof.
  intros H V N1 N2. rewrite (resolve_asks page x _ H). unfold resolve_text. cbv zeta. rewrite (valid_text v V), (dots v V). cbn [andb].
  destruct v as [a|a b|a b c|a b k n]; [now elim (N1 a)|now elim (N2 a b)|reflexivity|]. destruct V as (_ & _ & NK & K & _). cbn [last]. now rewrite suffix_pre.
Qed.
Lemma resolve_minor page a b : numeral a -> numeral b -> resolve_text page (go_text (GoMinor a b)) =
  match page with
  | None => None
  | Some all =>
      match latest_of (fun v => has_prefix v (a ++ #"." ++ b ++ #".")) all [] with
      | _ :: _ => Some (#"go" ++ latest_of (fun v => has_prefix v (a ++ #"." ++ b ++ #".")) all [])
      | [] => match latest_of (prerelease_of (go_text (GoMinor a b))) all [] with [] => None | _ :: _ => Some (#"go" ++ latest_of (prerelease_of (go_text (GoMinor a b))) all []) end
      end
  end.
Proof.
  intros A B. unfold resolve_text. cbv zeta. rewrite (dots (GoMinor a b) (conj A B)). cbn [last length Nat.leb Nat.eqb Nat.ltb negb]. rewrite suffix_digits by apply B. rewrite andb_false_r.
  cbn [go_text]. rewrite <- !app_assoc. reflexivity.
Qed.
Lemma prefix_nonempty a b v : has_prefix v (a ++ #"." ++ b ++ #".") = true -> v <> [].
Proof. intros H ->. apply has_prefix_iff in H as [r H]. symmetry in H. rewrite <- app_assoc in H. apply app_eq_nil in H as [_ H]. discriminate. Qed.
Lemma pre_nonempty a b v : prerelease_of (go_text (GoMinor a b)) v = true -> v <> [].
Proof. unfold prerelease_of. intros H ->. apply andb_true_iff in H as [H _]. apply has_prefix_iff in H as [r H]. symmetry in H. cbn [go_text] in H. rewrite <- app_assoc in H. apply app_eq_nil in H as [_ H]. discriminate. Qed.
Lemma patch_prefix a b c : has_prefix (go_text (GoPatch a b c)) (a ++ #"." ++ b ++ #".") = true.
Proof. apply has_prefix_iff. exists c. cbn [go_text]. now rewrite <- !app_assoc. Qed.
(** For a minor version the page is searched: the patch release with the largest number is
    taken, whatever else the page lists. *)
Theorem C93_latest_patch all x a b c0 : asks x (go_text (GoMinor a b)) -> numeral a -> numeral b ->
  In (go_text (GoPatch a b c0)) all -> numeral c0 ->
  exists c, resolve_version (Some all) x = Some (#"go" ++ go_text (GoPatch a b c)) /\ numeral c /\ In (go_text (GoPatch a b c)) all /\
    forall c', numeral c' -> In (go_text (GoPatch a b c')) all -> dec c' <= dec c.
Proof.
  intros H A B I N0. rewrite (resolve_asks _ _ _ H), resolve_minor by auto.
  destruct (latest_spec (fun v => has_prefix v (a ++ #"." ++ b ++ #".")) (prefix_nonempty a b) all []) as (L1 & _ & L3).
  set (r := latest_of _ all []) in *. destruct (L3 _ I (patch_prefix a b c0)) as [NR CR].
  destruct L1 as [L1|[L1 P]]; [congruence|]. apply has_prefix_iff in P as [t P]. rewrite <- !app_assoc in P.
  assert (V : exists v, go_ok v /\ go_text v = r).
  { destruct (parse_version_complete r) as [E|E]; auto. exfalso. apply CR.
    assert (S := C29_invalid_lowest r (GoPatch a b c0) (conj A (conj B N0)) E). pose proof (proj1 (proj2 (proj1 C29_total_preorder)) r (go_text (GoPatch a b c0))) as S2. rewrite S2, S. reflexivity. }
  destruct V as (v & V & E). rewrite P in E. destruct (patch_inv a b v t A B V E) as (c & C & ->). exists c.
  assert (R : r = go_text (GoPatch a b c)) by congruence. clearbody r. subst r. rewrite R in *. split; [|split; [auto|split; [auto|]]].
  - destruct (go_text (GoPatch a b c)) eqn:Q; [congruence|reflexivity].
  - intros c' N' I'. destruct (L3 _ I' (patch_prefix a b c')) as [_ Q]. rewrite C29_agrees_with_numbers in Q by (cbn; auto). unfold go_cmp in Q. cbn [go_major go_minor go_patch cmp_opt] in Q. rewrite !Nat.compare_refl in Q. cbn [lex] in Q.
    destruct (Nat.compare_spec (dec c') (dec c)); try lia. now elim Q.
Qed.
(** When nothing on the page begins like a patch release, the highest prerelease is taken. *)
Theorem C93_latest_prerelease all x a b k0 n0 : asks x (go_text (GoMinor a b)) ->
  (forall v r, In v all -> v <> a ++ #"." ++ b ++ #"." ++ r) ->
  go_ok (GoPre a b k0 n0) -> In (go_text (GoPre a b k0 n0)) all ->
  exists k n, resolve_version (Some all) x = Some (#"go" ++ go_text (GoPre a b k n)) /\ go_ok (GoPre a b k n) /\ In (go_text (GoPre a b k n)) all /\
    forall k' n', go_ok (GoPre a b k' n') -> In (go_text (GoPre a b k' n')) all -> go_cmp (GoPre a b k' n') (GoPre a b k n) <> Gt.
Proof.
  intros H NP V0 I. assert (A : numeral a) by apply V0. assert (B : numeral b) by apply V0. rewrite (resolve_asks _ _ _ H), resolve_minor by auto.
  destruct (latest_spec (fun v => has_prefix v (a ++ #"." ++ b ++ #".")) (prefix_nonempty a b) all []) as (L1 & _ & _).
  destruct L1 as [L1|[L1 P]]; [|apply has_prefix_iff in P as [t P]; rewrite <- !app_assoc in P; now elim (NP _ _ L1 P)]. rewrite L1. clear L1.
  destruct (latest_spec (prerelease_of (go_text (GoMinor a b))) (pre_nonempty a b) all []) as (L1 & _ & L3). set (r := latest_of _ all []) in *.
  assert (O : forall k n, go_ok (GoPre a b k n) -> In (go_text (GoPre a b k n)) all -> prerelease_of (go_text (GoMinor a b)) (go_text (GoPre a b k n)) = true).
  { intros k n V J. apply prerelease_of_iff; auto. exists k, n. auto. }
  destruct (L3 _ I (O _ _ V0 I)) as [NR _]. destruct L1 as [L1|[L1 P]]; [congruence|]. apply prerelease_of_iff in P; auto. destruct P as (k & n & V & R). exists k, n. clearbody r. subst r.
  split; [|split; [auto|split; [auto|]]].
  - destruct (go_text (GoPre a b k n)) eqn:Q; [congruence|reflexivity].
  - intros k' n' V' I'. destruct (L3 _ I' (O _ _ V' I')) as [_ Q]. now rewrite C29_agrees_with_numbers in Q by auto.
Qed.
(** It is an error exactly when there is neither, or no page. *)
Theorem C93_none_found page x a b : asks x (go_text (GoMinor a b)) -> numeral a -> numeral b ->
  (resolve_version page x = None <-> forall all, page = Some all -> forall v, In v all -> (forall r, v <> a ++ #"." ++ b ++ #"." ++ r) /\ ~ is_prerelease a b v).
Proof.
  intros H A B. rewrite (resolve_asks _ _ _ H), resolve_minor by auto. destruct page as [all|]; [|split; [discriminate|reflexivity]].
  destruct (latest_spec (fun v => has_prefix v (a ++ #"." ++ b ++ #".")) (prefix_nonempty a b) all []) as (L1 & _ & L3).
  destruct (latest_spec (prerelease_of (go_text (GoMinor a b))) (pre_nonempty a b) all []) as (M1 & _ & M3).
  set (r := latest_of (fun v : bytes => has_prefix v (a ++ #"." ++ b ++ #".")) all []) in *. set (q := latest_of (prerelease_of (go_text (GoMinor a b))) all []) in *. clearbody r q. split.
  - intros E al X v I. injection X as <-. assert (R0 : r = []) by (destruct r; [auto|discriminate]). assert (Q0 : q = []) by (rewrite R0 in E; destruct q; [auto|discriminate]).
    assert (N : forall t, v <> a ++ #"." ++ b ++ #"." ++ t).
    { intros t ->. destruct (L3 _ I) as [K _]; [|congruence]. apply has_prefix_iff. exists t. now rewrite <- !app_assoc. }
    split; auto. intros P. apply (prerelease_of_iff a b v A B N) in P. now destruct (M3 _ I P).
  - intros K. specialize (K all eq_refl). destruct L1 as [L1|[L1 P]].
    + rewrite L1. destruct M1 as [M1|[M1 P]]; [now rewrite M1|]. destruct (K _ M1) as [K1 K2]. apply prerelease_of_iff in P; auto. contradiction.
    + apply has_prefix_iff in P as [t P]; rewrite <- !app_assoc in P. now elim (proj1 (K _ L1) t).
Qed.
(** What is returned is always the version asked for, or one of the page that begins with it. *)
Theorem C93_result page x r : resolve_version page x = Some r ->
  exists t v, asks x t /\ r = #"go" ++ v /\ (v = t /\ is_go_version t \/ exists all u, page = Some all /\ In v all /\ v = t ++ u /\ u <> []).
Proof.
  intros E. assert (H : exists t, asks x t).
  { assert (N : trim_space x <> []) by (unfold resolve_version in E; cbv zeta in E; destruct (trim_space x); congruence).
    destruct (has_prefix (trim_space x) #"go") eqn:P.
    - apply has_prefix_iff in P as [t P]. exists t, (trim_space x). split; [now apply trim_space_iff|]. auto.
    - exists (trim_space x), (trim_space x). split; [now apply trim_space_iff|]. split; auto. right. split; auto. intros u Q. rewrite Q, has_prefix_app in P. discriminate. }
  destruct H as [t H]. rewrite (resolve_asks _ _ _ H) in E. exists t. unfold resolve_text in E. cbv zeta in E.
  destruct (is_valid_version t) eqn:V.
  - assert (V' := V). apply valid_inv in V' as V2. fold (is_go_version t) in V2. destruct (true && _).
    { injection E as <-. exists t. auto. }
    destruct (_ <? 2); [discriminate|]. destruct (_ =? 3). { injection E as <-. exists t. auto. }
    destruct (negb _); [discriminate|]. destruct page as [all|]; [|discriminate].
    destruct (latest_of (fun v => _) all []) eqn:L.
    + destruct (latest_of (prerelease_of t) all []) eqn:M; [discriminate|]. injection E as <-.
      destruct (latest_spec (prerelease_of t)) with (all := all) (l := @nil ascii) as (M1 & _ & _).
      { intros v O ->. unfold prerelease_of in O. rewrite skipn_nil in O. rewrite andb_false_r in O. discriminate. }
      rewrite M in M1. destruct M1 as [M1|[M1 O]]; [discriminate|]. eexists. split; [exact H|]. split; [reflexivity|]. right. exists all.
      unfold prerelease_of in O. apply andb_true_iff in O as [O1 O2]. apply has_prefix_iff in O1 as [u O1]. exists u. repeat split; auto. intros ->. rewrite O1, app_nil_r, skipn_all in O2. discriminate.
    + injection E as <-. destruct (latest_spec (fun v => has_prefix v (t ++ #"."))) with (all := all) (l := @nil ascii) as (M1 & _ & _).
      { intros v O ->. apply has_prefix_iff in O as [u O]. symmetry in O. apply app_eq_nil in O as [O _]. apply app_eq_nil in O as [_ O]. discriminate. }
      rewrite L in M1. destruct M1 as [M1|[M1 O]]; [discriminate|]. eexists. split; [exact H|]. split; [reflexivity|]. right. exists all.
      apply has_prefix_iff in O as [u O]. exists (#"." ++ u). rewrite <- app_assoc in O. repeat split; auto. discriminate.
  - cbn [andb] in E. destruct (_ <? 2); [discriminate|]. destruct (_ =? 3); [discriminate|].
    destruct (negb _); [discriminate|]. destruct page as [all|]; [|discriminate].
    destruct (latest_of (fun v => _) all []) eqn:L.
    + destruct (latest_of (prerelease_of t) all []) eqn:M; [discriminate|]. injection E as <-.
      destruct (latest_spec (prerelease_of t)) with (all := all) (l := @nil ascii) as (M1 & _ & _).
      { intros v O ->. unfold prerelease_of in O. rewrite skipn_nil in O. rewrite andb_false_r in O. discriminate. }
      rewrite M in M1. destruct M1 as [M1|[M1 O]]; [discriminate|]. eexists. split; [exact H|]. split; [reflexivity|]. right. exists all.
      unfold prerelease_of in O. apply andb_true_iff in O as [O1 O2]. apply has_prefix_iff in O1 as [u O1]. exists u. repeat split; auto. intros ->. rewrite O1, app_nil_r, skipn_all in O2. discriminate.
    + injection E as <-. destruct (latest_spec (fun v => has_prefix v (t ++ #"."))) with (all := all) (l := @nil ascii) as (M1 & _ & _).
      { intros v O ->. apply has_prefix_iff in O as [u O]. symmetry in O. apply app_eq_nil in O as [O _]. apply app_eq_nil in O as [_ O]. discriminate. }
      rewrite L in M1. destruct M1 as [M1|[M1 O]]; [discriminate|]. eexists. split; [exact H|]. split; [reflexivity|]. right. exists all.
      apply has_prefix_iff in O as [u O]. exists (#"." ++ u). rewrite <- app_assoc in O. repeat split; auto. discriminate.
Qed.

(** ** The page *)
Lemma quote_first v : ~ In quotec v -> first_after v #"""".
Proof.
  intros N (x & y & E). cbn [removelast lit list_ascii_of_string] in E. rewrite app_nil_r in E. apply N. rewrite E. apply in_or_app. right. now left.
Qed.
Lemma first_quote v : first_after v #"""" -> ~ In quotec v.
Proof. intros F I. apply in_split in I as (x & y & ->). apply F. exists x, y. cbn [removelast lit list_ascii_of_string]. rewrite app_nil_r. reflexivity. Qed.
Lemma line_version_iff l v : line_version l = Some v <-> lists l v.
Proof.
  unfold line_version. cbv zeta. split.
  - destruct (has_prefix (trim_space l) #"<div ") eqn:P; [|discriminate]. cbn [negb]. apply has_prefix_iff in P as [r P].
    destruct (index (trim_space l) #"id=""go") as [i|] eqn:I; [|discriminate]. apply index_some_iff in I as (a & b & E & L & F); [|discriminate].
    assert (SK : skipn (i + length (#"id=""go")) (trim_space l) = b) by (rewrite E, <- L; apply (proj2 (split_at a _ b))). rewrite SK.
    destruct (index b #"""") as [q|] eqn:Q; [|discriminate]. apply index_some_iff in Q as (w & z & E2 & L2 & F2); [|discriminate].
    assert (FN : firstn q b = w) by (rewrite E2, <- L2; apply (proj1 (split_at w _ z))). rewrite FN. destruct w as [|w0 w]; [discriminate|]. intros X. injection X as <-.
    exists (trim_space l), a, z. split; [now apply trim_space_iff|]. split; [eauto|]. split; [now rewrite E, E2|]. split; auto. split; [now apply first_quote|discriminate].
  - intros (s & a & b & S & (r & P) & E & F & N & NE). apply trim_space_iff in S. rewrite S.
    assert (HP : has_prefix s #"<div " = true) by (apply has_prefix_iff; eauto). rewrite HP. cbn [negb].
    assert (I : index s #"id=""go" = Some (length a)) by (apply index_some_iff; [discriminate|]; exists a, (v ++ #"""" ++ b); auto). rewrite I.
    assert (SK : skipn (length a + length (#"id=""go")) s = v ++ #"""" ++ b) by (rewrite E; apply (proj2 (split_at a _ _))). rewrite SK.
    assert (Q : index (v ++ #"""" ++ b) #"""" = Some (length v)) by (apply index_some_iff; [discriminate|]; exists v, b; split; [auto|split; [auto|now apply quote_first]]). rewrite Q.
    rewrite (proj1 (split_at v _ b)). destruct v; [congruence|reflexivity].
Qed.
Lemma page_versions_iff ls vs : page_versions ls = vs <-> page_lists ls vs.
Proof.
  revert vs. induction ls as [|l ls IH]; intros vs; cbn [page_versions].
  - split; [intros <-; constructor|inversion 1; auto].
  - destruct (line_version l) as [v|] eqn:E.
    + apply line_version_iff in E. split.
      * intros <-. constructor; auto. now apply IH.
      * inversion 1; subst; [|now elim (H2 v)]. apply line_version_iff in E, H2. f_equal; [congruence|]. now apply IH.
    + assert (N : forall v, ~ lists l v) by (intros v V; apply line_version_iff in V; congruence). split.
      * intros X. apply page_other; auto. now apply IH.
      * inversion 1; subst; [now elim (N v)|]. now apply IH.
Qed.
(** The version list is read off the lines of the page, in their order. *)
Theorem C93_page ls vs : ls <> [] -> Forall (fun l => ~ In "010"%char l) ls -> (parse_download_versions (join ["010"%char] ls) = vs <-> page_lists ls vs).
Proof. intros N F. unfold parse_download_versions. rewrite split_join by auto. apply page_versions_iff. Qed.

(** ** C94: a shell reads a shown command as the words it was made of *)
Lemma safe_ordinary c : safe_char c = true -> ordinary c /\ ~ In c special_start.
Proof.
  intros H. assert (D : forall d, In d (special ++ (#"'""\ " ++ ["009"%char]) ++ special_start) -> safe_char d = false).
  { intros d I. assert (K : forallb (fun d => negb (safe_char d)) (special ++ (#"'""\ " ++ ["009"%char]) ++ special_start) = true) by (vm_compute; reflexivity).
    rewrite forallb_forall in K. apply K in I. now apply negb_true_iff in I. }
  assert (N : ~ In c (special ++ (#"'""\ " ++ ["009"%char]) ++ special_start)) by (intros I; apply D in I; congruence). rewrite !in_app_iff in N. unfold ordinary. rewrite in_app_iff. tauto.
Qed.
Lemma shell_quote_word s rest : sh Plain None (shell_quote s ++ rest) = sh Plain (Some s) rest.
Proof.
  destruct s as [|c s]; [reflexivity|]. unfold shell_quote. destruct (forallb safe_char (c :: s)) eqn:Q.
  - assert (O : Forall ordinary (c :: s)) by (apply Forall_forall; intros d I; rewrite forallb_forall in Q; apply safe_ordinary; auto).
    cbn [forallb] in Q. apply andb_true_iff in Q as [Q _]. inversion O; subst. cbn [app]. rewrite sh_ordinary; [|auto|intros _; now apply safe_ordinary]. cbn [app]. now rewrite sh_plain.
  - rewrite <- !app_assoc. change (#"'" ++ ?x) with ("'"%char :: x) at 1. cbn [sh]. apply (sh_single (c :: s) rest []).
Qed.
Theorem C94_shown_command cmd args : shell_words (shell_quote_args cmd args) = Some (cmd :: args).
Proof.
  unfold shell_quote_args, shell_words. revert cmd. induction args as [|a args IH]; intros cmd.
  - cbn [map join]. rewrite <- (app_nil_r (shell_quote cmd)), shell_quote_word. reflexivity.
  - change (join #" " (map shell_quote (cmd :: a :: args))) with (shell_quote cmd ++ " "%char :: join #" " (map shell_quote (a :: args))). rewrite shell_quote_word. cbn [sh]. change (eqc " "%char " "%char) with true. cbn [orb]. now rewrite IH.
Qed.
(** A word made of letters, digits and / . - _ = : alone is shown as it is. *)
Theorem C94_plain_words s : s <> [] -> Forall (fun c => In c (#"/.-_=:0123456789ABCDEFGHIJKLMNOPQRSTUVWXYZabcdefghijklmnopqrstuvwxyz")) s -> shell_quote s = s.
Proof.
  intros N F. destruct s as [|c s]; [congruence|]. unfold shell_quote. replace (forallb safe_char (c :: s)) with true; auto. symmetry. apply forallb_forall. rewrite Forall_forall in F. intros d I. apply F in I.
  assert (K : forallb safe_char #"/.-_=:0123456789ABCDEFGHIJKLMNOPQRSTUVWXYZabcdefghijklmnopqrstuvwxyz" = true) by (vm_compute; reflexivity). rewrite forallb_forall in K. now apply K.
Qed.

(** ** The hypotheses hold of real requests *)
Lemma num s : s <> [] -> forallb is_digit s = true -> (forall r, s = "0"%char :: r -> r = []) -> numeral s.
Proof. intros N F Z. split; auto. split; auto. apply Forall_forall. now apply forallb_forall. Qed.
Example C93_asked : asks #" go1.27 " (go_text (GoMinor #"1" #"27")) /\ asks #"1.21rc2" (go_text (GoPre #"1" #"21" #"rc" (Some #"2"))).
Proof.
  split.
  - exists #"go1.27". split; [apply trim_space_iff; reflexivity|]. split; [discriminate|]. now left.
  - exists #"1.21rc2". split; [apply trim_space_iff; reflexivity|]. split; [discriminate|]. right. split; auto. intros r H. discriminate.
Qed.
Example C93_patch : In (go_text (GoPatch #"1" #"27" #"9")) [#"1.28.0"; #"1.27.10"; #"1.27.9"; #"1.27rc1"] /\
  resolve_version (Some [#"1.28.0"; #"1.27.10"; #"1.27.9"; #"1.27rc1"]) #" go1.27 " = Some #"go1.27.10".
Proof. split; [right; right; now left|vm_compute; reflexivity]. Qed.
Example C93_prerelease : resolve_version (Some [#"1.28.0"; #"1.27beta1"; #"1.27rc1"; #"1.270.1"]) #"1.27" = Some #"go1.27rc1".
Proof. vm_compute. reflexivity. Qed.
Example C93_a_page : page_lists [#"<html>"; #"  <div class=""toggle"" id=""go1.21.0"">"; #"<div id=""go"">"] [#"1.21.0"].
Proof. apply page_versions_iff. vm_compute. reflexivity. Qed.
Example C94_example : shell_quote_args #"git" [#"-c"; #"user.name=xgo"; #"commit"; #"-m"; #"init go1.21's"] = #"git -c user.name=xgo commit -m 'init go1.21'\''s'".
Proof. vm_compute. reflexivity. Qed.
