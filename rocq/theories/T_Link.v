(** * The lines that carry the version and the flags (C104) *)
From Coq Require Import Ascii String List Arith Bool Lia.
From Verif Require Import M_Str P_Str M_Coverage M_Link.
Import ListNotations.
Open Scope nat_scope.
Open Scope list_scope.

(** ** Specification: a file is its lines; a constant is declared on a line of its own, which
    begins with [const NAME = ] and is not the last, empty one; "const " is nowhere else. *)
Definition cw : bytes := #"const ".
Definition lines (code : bytes) : list bytes := split nl code.
Definition tidy (l : bytes) : Prop := occurs cw l -> exists r, l = cw ++ r /\ ~ occurs cw r.
Definition tidy_file (code : bytes) : Prop := Forall tidy (lines code).
(** the value of a constant is [const_value] of the model: the rest of the first such line. *)
Definition value (name code : bytes) : option bytes := const_value name code.
(** a value that can be written: one line, without "const " *)
Definition writable (v : bytes) : Prop := ~ In nl v /\ ~ occurs cw v.

Fixpoint set_line (p v : bytes) (ls : list bytes) : list bytes :=
  match ls with
  | [] => []
  | [x] => [x]
  | l :: r => if has_prefix l p then (p ++ v) :: r else l :: set_line p v r
  end.
Lemma set_line_cons p v l r : r <> [] -> set_line p v (l :: r) = if has_prefix l p then (p ++ v) :: r else l :: set_line p v r.
Proof. destruct r; [congruence|reflexivity]. Qed.
Lemma first_line_cons p l r : r <> [] -> first_line p (l :: r) = if has_prefix l p then Some (skipn (length p) l) else first_line p r.
Proof. destruct r; [congruence|reflexivity]. Qed.
Lemma set_line_nonempty p v ls : ls <> [] -> set_line p v ls <> [].
Proof. destruct ls as [|x [|y r]]; cbn [set_line]; try congruence. destruct (has_prefix x p); congruence. Qed.

Section Pattern.
  Variable N : bytes.
  Let p := cw ++ N.
  Hypothesis Nnl : ~ In nl p.
  Lemma pnil : p <> []. Proof. discriminate. Qed.
  Lemma tidy_prefix l : tidy l -> occurs p l -> has_prefix l p = true.
  Proof.
    intros T O. destruct T as (r & -> & T); [eapply occurs_prefix; exact O|].
    destruct O as (a & b & E). destruct a as [|x a]; [cbn [app] in E; rewrite E; apply has_prefix_app|].
    exfalso. apply T. assert (E' : r = skipn 6 ((x :: a) ++ cw ++ N ++ b)).
    { change (skipn 6 ((x :: a) ++ cw ++ N ++ b)) with (skipn 6 ((x :: a) ++ cw ++ (N ++ b))). unfold p in E. rewrite <- app_assoc in E. rewrite <- E. reflexivity. }
    unfold p in E. rewrite <- app_assoc in E.
    (* the occurrence begins after the first byte; "const " does not overlap itself *)
    destruct (le_lt_dec 6 (length (x :: a))) as [L|L].
    - exists (skipn 6 (x :: a)), (N ++ b). rewrite E'. rewrite skipn_app. replace (6 - length (x :: a)) with 0 by lia. reflexivity.
    - exfalso. clear E'. cbn in E. injection E as <- E.
      do 5 (destruct a as [|y a]; [discriminate E|injection E as <- E]). cbn in L. lia.
  Qed.
  Lemma index_skip_line l J : ~ occurs p l -> index (l ++ nl :: J) p = option_map (fun k => length l + 1 + k) (index J p).
  Proof.
    intros O. destruct (index J p) as [k|] eqn:I; cbn [option_map].
    - pose proof (index_first _ _ _ I) as F. apply index_sound in I as (a & b & E & L). subst k.
      replace (length l + 1 + length a) with (length (l ++ nl :: a)) by (rewrite app_length; cbn; lia).
      apply (index_least _ p (l ++ nl :: a) b).
      + rewrite E, <- app_assoc. reflexivity.
      + intros a' b' E'. destruct (le_lt_dec (length (l ++ [nl])) (length a')) as [Le|Lt].
        * assert (X : (l ++ [nl]) ++ J = a' ++ p ++ b') by (rewrite <- E', <- app_assoc; reflexivity).
          apply app_cut in X as (y & -> & Y); [|lia]. specialize (F y b' Y). rewrite !app_length in *. cbn in *. lia.
        * exfalso. rewrite app_length in Lt. cbn in Lt.
          destruct (le_lt_dec (length a' + length p) (length l)) as [Q|Q].
          -- rewrite app_assoc in E'. symmetry in E'. apply app_cut in E' as (y & Y & _); [|rewrite app_length; lia].
             apply O. rewrite Y. exists a', y. now rewrite <- app_assoc.
          -- apply Nnl. assert (X : nth_error (l ++ nl :: J) (length l) = Some nl) by (rewrite nth_error_app2, Nat.sub_diag by lia; reflexivity).
             rewrite E' in X. rewrite nth_error_app2 in X by lia. rewrite nth_error_app1 in X by lia. eapply nth_error_In, X.
    - apply index_none_iff. apply index_none_iff in I. apply not_barrier; auto. apply pnil.
  Qed.
  Lemma index_nl o r : ~ In nl o -> index (o ++ nl :: r) [nl] = Some (length o).
  Proof.
    intros H. induction o as [|x o IH]; cbn [index has_prefix app length]; [now rewrite eqc_refl|].
    assert (X : eqc x nl = false) by (apply eqc_neq; intros ->; apply H; now left). rewrite X. cbn [andb]. rewrite IH; [reflexivity|].
    intros I. apply H. now right.
  Qed.
  Lemma index_nl_none o : ~ In nl o -> index o [nl] = None.
  Proof. intros H. apply index_none_iff. intros (a & b & ->). apply H. apply in_or_app. right. now left. Qed.
  Lemma replace_skip l J r : ~ occurs p l -> replaceByLine (l ++ nl :: J) p r = l ++ nl :: replaceByLine J p r.
  Proof.
    intros O. unfold replaceByLine. rewrite index_skip_line by auto. destruct (index J p) as [k|]; cbn [option_map]; [|reflexivity].
    assert (S1 : forall m, skipn (length l + 1 + m) (l ++ nl :: J) = skipn m J).
    { intros m. replace (length l + 1 + m) with (length (l ++ [nl]) + m) by (rewrite app_length; reflexivity).
      change (l ++ nl :: J) with (l ++ [nl] ++ J). rewrite app_assoc, skipn_app. replace (length (l ++ [nl]) + m - length (l ++ [nl])) with m by lia.
      now rewrite skipn_all2 by lia. }
    replace (length l + 1 + k + length p) with (length l + 1 + (k + length p)) by lia. rewrite S1.
    destruct (index (skipn (k + length p) J) [nl]) as [e|]; [|reflexivity].
    replace (length l + 1 + (k + length p) + e) with (length l + 1 + (k + length p + e)) by lia. rewrite S1.
    assert (F1 : firstn (length l + 1 + k) (l ++ nl :: J) = l ++ nl :: firstn k J).
    { replace (length l + 1 + k) with (length l + S k) by lia. rewrite firstn_app_2. reflexivity. }
    rewrite F1, <- app_assoc. reflexivity.
  Qed.
  Lemma no_prefix_no_occurs l : tidy l -> has_prefix l p = false -> ~ occurs p l.
  Proof. intros T H O. apply tidy_prefix in O; auto. congruence. Qed.
  Lemma replace_join v ls : ls <> [] -> Forall (fun l => ~ In nl l) ls -> Forall tidy ls ->
    replaceByLine (join [nl] ls) p (p ++ v) = join [nl] (set_line p v ls).
  Proof.
    induction ls as [|l ls IH]; intros NE FN FT; [congruence|].
    inversion FN as [|? ? Hn FN']; inversion FT as [|? ? Ht FT']; subst. destruct ls as [|l2 ls].
    - cbn [join set_line]. unfold replaceByLine. destruct (index l p) as [i|]; [|reflexivity].
      rewrite index_nl_none; [reflexivity|]. intros I. apply Hn. rewrite <- (firstn_skipn (i + length p) l). apply in_or_app. now right.
    - rewrite set_line_cons by discriminate. change (join [nl] (l :: l2 :: ls)) with (l ++ nl :: join [nl] (l2 :: ls)).
      destruct (has_prefix l p) eqn:P.
      + apply has_prefix_sound in P as [o ->]. unfold replaceByLine. rewrite <- app_assoc, index_here. cbn [Nat.add].
        rewrite skipn_app_exact by reflexivity. assert (Ho : ~ In nl o) by (intros I; apply Hn, in_or_app; now right).
        rewrite index_nl by auto. cbn [firstn app]. rewrite app_assoc, skipn_app_exact by now rewrite app_length.
        destruct ls; reflexivity.
      + rewrite replace_skip by now apply no_prefix_no_occurs. rewrite IH by (auto; discriminate).
        assert (NE' : set_line p v (l2 :: ls) <> []) by (apply set_line_nonempty; discriminate).
        destruct (set_line p v (l2 :: ls)) as [|y r]; [congruence|reflexivity].
  Qed.
  Lemma set_line_nonl v ls : ~ In nl v -> Forall (fun l => ~ In nl l) ls -> Forall (fun l => ~ In nl l) (set_line p v ls).
  Proof.
    intros Hv. induction ls as [|l ls IH]; intros F; [constructor|]. inversion F; subst. destruct ls as [|l2 ls]; [exact F|].
    rewrite set_line_cons by discriminate. destruct (has_prefix l p); constructor; auto. intros I. apply in_app_iff in I as [I|I]; auto.
  Qed.
  Lemma lines_nonl code : Forall (fun l => ~ In nl l) (lines code).
  Proof. apply Forall_forall. intros x I. now apply split_no_sep in I. Qed.
  Lemma replace_lines v code : ~ In nl v -> tidy_file code -> lines (replaceByLine code p (p ++ v)) = set_line p v (lines code).
  Proof.
    intros Hv T. unfold lines at 1. rewrite <- (join_split nl code) at 1.
    rewrite replace_join; [|apply split_nonempty|apply lines_nonl|exact T].
    apply split_join; [apply set_line_nonempty, split_nonempty|apply set_line_nonl; auto; apply lines_nonl].
  Qed.
  Lemma set_line_tidy v ls : ~ In "c"%char N -> ~ occurs cw v -> Forall tidy ls -> Forall tidy (set_line p v ls).
  Proof.
    intros Nc Hv. induction ls as [|l ls IH]; intros F; [constructor|]. inversion F; subst. destruct ls as [|l2 ls]; [exact F|].
    rewrite set_line_cons by discriminate. destruct (has_prefix l p); constructor; auto.
    intros _. exists (N ++ v). split; [unfold p; now rewrite <- app_assoc|]. intros (a & b & E). apply Hv.
    destruct (le_lt_dec (length N) (length a)) as [L|L].
    - apply app_cut in E as (y & Y1 & Y2); auto. exists y, b. exact Y2.
    - exfalso. apply Nc. assert (X : nth_error (N ++ v) (length a) = Some "c"%char) by (rewrite E, nth_error_app2, Nat.sub_diag by lia; reflexivity).
      rewrite nth_error_app1 in X by lia. eapply nth_error_In, X.
  Qed.
End Pattern.

(** two patterns of which neither begins the other *)
Definition apart (p q : bytes) : Prop := forall l, has_prefix l p = true -> has_prefix l q = true -> False.
Fixpoint differ (p q : bytes) : bool :=
  match p, q with x :: p, y :: q => if eqc x y then differ p q else true | _, _ => false end.
Lemma differ_apart p q : differ p q = true -> apart p q.
Proof.
  revert q; induction p as [|x p IH]; intros [|y q] D l P Q; try discriminate D.
  destruct l as [|z l]; [discriminate P|]. cbn [differ has_prefix] in *. apply andb_prop in P as [P1 P2]. apply andb_prop in Q as [Q1 Q2].
  apply eqc_eq in P1, Q1. subst. rewrite eqc_refl in D. now apply (IH q D l).
Qed.
Lemma get_set p v ls : first_line p ls <> None -> first_line p (set_line p v ls) = Some v.
Proof.
  induction ls as [|l ls IH]; [intros H; exfalso; now apply H|]. destruct ls as [|l2 ls]; [intros H; exfalso; now apply H|].
  rewrite set_line_cons, first_line_cons by discriminate. destruct (has_prefix l p) eqn:P.
  - intros _. rewrite first_line_cons by discriminate. now rewrite has_prefix_app, skipn_app_exact.
  - intros H. rewrite first_line_cons by (apply set_line_nonempty; discriminate). rewrite P. now apply IH.
Qed.
Lemma get_other p q v ls : apart p q -> first_line q (set_line p v ls) = first_line q ls.
Proof.
  intros A. induction ls as [|l ls IH]; [reflexivity|]. destruct ls as [|l2 ls]; [reflexivity|].
  rewrite set_line_cons by discriminate. destruct (has_prefix l p) eqn:P.
  - rewrite (first_line_cons q (p ++ v)), (first_line_cons q l) by discriminate. destruct (has_prefix (p ++ v) q) eqn:Q1; [exfalso; eapply A; [apply has_prefix_app|exact Q1]|].
    destruct (has_prefix l q) eqn:Q2; [exfalso; eapply A; eauto|reflexivity].
  - rewrite (first_line_cons q l (set_line p v (l2 :: ls))), (first_line_cons q l (l2 :: ls)) by (try apply set_line_nonempty; discriminate). now rewrite IH.
Qed.
Lemma set_set p v w ls : set_line p v (set_line p w ls) = set_line p v ls.
Proof.
  induction ls as [|l ls IH]; [reflexivity|]. destruct ls as [|l2 ls]; [reflexivity|].
  rewrite (set_line_cons p w l), (set_line_cons p v l) by discriminate. destruct (has_prefix l p) eqn:P.
  - rewrite set_line_cons by discriminate. now rewrite has_prefix_app.
  - rewrite set_line_cons by (apply set_line_nonempty; discriminate). now rewrite P, IH.
Qed.
Lemma set_comm p q v w ls : apart p q -> set_line p v (set_line q w ls) = set_line q w (set_line p v ls).
Proof.
  intros A. induction ls as [|l ls IH]; [reflexivity|]. destruct ls as [|l2 ls]; [reflexivity|].
  rewrite (set_line_cons q w l), (set_line_cons p v l) by discriminate.
  destruct (has_prefix l q) eqn:Q, (has_prefix l p) eqn:P.
  - exfalso. eapply A; eauto.
  - rewrite (set_line_cons p v (q ++ w)) by discriminate. destruct (has_prefix (q ++ w) p) eqn:P2; [exfalso; eapply A; [exact P2|apply has_prefix_app]|].
    rewrite (set_line_cons q w l) by (apply set_line_nonempty; discriminate). now rewrite Q.
  - rewrite (set_line_cons q w (p ++ v)) by discriminate. destruct (has_prefix (p ++ v) q) eqn:P2; [exfalso; eapply A; [apply has_prefix_app|exact P2]|].
    rewrite (set_line_cons p v l) by (apply set_line_nonempty; discriminate). now rewrite P.
  - rewrite (set_line_cons p v l), (set_line_cons q w l) by (apply set_line_nonempty; discriminate). now rewrite P, Q, IH.
Qed.
(** what differs between a file before and after: lines that declare one of [ps]. *)
Definition same_but (ps : list bytes) (ls ls' : list bytes) : Prop :=
  Forall2 (fun l l' => l = l' \/ exists p, In p ps /\ has_prefix l p = true /\ has_prefix l' p = true) ls ls'.
Lemma same_refl ps ls : same_but ps ls ls.
Proof. induction ls; constructor; auto. Qed.
Lemma same_set ps p v ls ls0 : In p ps -> (forall q, In q ps -> q = p \/ apart p q) -> same_but ps ls0 ls -> same_but ps ls0 (set_line p v ls).
Proof.
  intros I D S. induction S as [|l0 l r0 r H S IH]; [constructor|]. destruct r as [|l2 r]; [constructor; auto|].
  rewrite set_line_cons by discriminate. destruct (has_prefix l p) eqn:P; constructor; auto. right. exists p. split; [exact I|split; [|apply has_prefix_app]].
  destruct H as [-> |(q & Q & A & B)]; auto. destruct (D q Q) as [-> |X]; auto. exfalso. eapply X; eauto.
Qed.
Lemma same_length ps ls ls' : same_but ps ls ls' -> length ls = length ls'.
Proof. induction 1; cbn; congruence. Qed.

(** ** The version *)
Definition xv := cw ++ #"XGO_VERSION = ".
Definition xr := cw ++ #"XGO_REVISION = ".
Definition xn := cw ++ #"XGO_NUMBER = ".
Lemma occurs_dq v : writable v -> writable (dq ++ v ++ dq).
Proof.
  intros [A B]. split.
  - intros I. cbn in I. destruct I as [I|I]; [discriminate I|]. apply in_app_iff in I as [I|[I|[]]]; [auto|discriminate I].
  - assert (D : ~ In (ascii_of_nat 34) cw) by (cbn; intuition discriminate). assert (C : cw <> []) by discriminate.
    change (dq ++ v ++ dq) with ([] ++ ascii_of_nat 34 :: (v ++ ascii_of_nat 34 :: [])).
    apply not_barrier; auto; [now apply occurs_nil_left|]. apply not_barrier; auto. now apply occurs_nil_left.
Qed.
Ltac pat := intros I; vm_compute in I; intuition discriminate.
Lemma version_lines code v r n : tidy_file code -> writable v -> writable r -> writable n ->
  lines (ReplaceActualXgoVersion code v r n) = set_line xn n (set_line xr (dq ++ r ++ dq) (set_line xv (dq ++ v ++ dq) (lines code)))
  /\ tidy_file (ReplaceActualXgoVersion code v r n).
Proof.
  intros T Wv Wr Wn. apply occurs_dq in Wv as [V1 V2]. apply occurs_dq in Wr as [R1 R2]. destruct Wn as [N1 N2].
  unfold ReplaceActualXgoVersion.
  change #"const XGO_VERSION = " with (cw ++ #"XGO_VERSION = "). change #"const XGO_REVISION = " with (cw ++ #"XGO_REVISION = ").
  change #"const XGO_NUMBER = " with (cw ++ #"XGO_NUMBER = ").
  set (c1 := replaceByLine code _ _).
  assert (L1 : lines c1 = set_line xv (dq ++ v ++ dq) (lines code)) by (apply replace_lines; auto; pat).
  assert (T1 : tidy_file c1) by (unfold tidy_file; rewrite L1; apply set_line_tidy; auto; pat).
  set (c2 := replaceByLine c1 _ _).
  assert (L2 : lines c2 = set_line xr (dq ++ r ++ dq) (lines c1)) by (apply replace_lines; auto; pat).
  assert (T2 : tidy_file c2) by (unfold tidy_file; rewrite L2; apply set_line_tidy; auto; pat).
  set (c3 := replaceByLine c2 _ _).
  assert (L3 : lines c3 = set_line xn n (lines c2)) by (apply replace_lines; auto; pat).
  split; [now rewrite L3, L2, L1|]. unfold tidy_file; rewrite L3; apply set_line_tidy; auto; pat.
Qed.
Lemma a_vr : apart xv xr. Proof. now apply differ_apart. Qed.
Lemma a_vn : apart xv xn. Proof. now apply differ_apart. Qed.
Lemma a_rv : apart xr xv. Proof. now apply differ_apart. Qed.
Lemma a_rn : apart xr xn. Proof. now apply differ_apart. Qed.
Lemma a_nv : apart xn xv. Proof. now apply differ_apart. Qed.
Lemma a_nr : apart xn xr. Proof. now apply differ_apart. Qed.
Lemma lines_inj a b : lines a = lines b -> a = b.
Proof. intros E. rewrite <- (join_split nl a), <- (join_split nl b). f_equal. exact E. Qed.
Lemma index_anchor_join ls : Forall (fun l => ~ In nl l) ls -> Forall tidy ls -> ls <> [] -> forall unquote,
  ParseCoreVersion unquote (join [nl] ls) =
  match first_line (cw ++ #"VERSION =") ls with
  | None => None
  | Some t => match unquote (trim_space t) with Some [] | None => None | Some v => Some v end
  end.
Proof.
  intros FN FT NE unquote. unfold ParseCoreVersion. change #"const VERSION =" with (cw ++ #"VERSION ="). set (p := cw ++ #"VERSION =").
  assert (Pn : ~ In nl p) by pat.
  induction ls as [|l ls IH]; [congruence|]. inversion FN as [|? ? Hn FN']; inversion FT as [|? ? Ht FT']; subst. destruct ls as [|l2 ls].
  - cbn [join first_line]. destruct (index l p) as [i|]; [|reflexivity]. rewrite index_nl_none; [reflexivity|].
    intros I. apply Hn. rewrite <- (firstn_skipn (i + length p) l). apply in_or_app. now right.
  - rewrite first_line_cons by discriminate. change (join [nl] (l :: l2 :: ls)) with (l ++ nl :: join [nl] (l2 :: ls)).
    destruct (has_prefix l p) eqn:P.
    + apply has_prefix_sound in P as [o ->]. rewrite <- app_assoc, index_here. cbn [Nat.add]. rewrite !skipn_app_exact by reflexivity.
      assert (Ho : ~ In nl o) by (intros I; apply Hn, in_or_app; now right). rewrite index_nl by auto. now rewrite firstn_app_exact.
    + rewrite (index_skip_line #"VERSION =" Pn) by (now apply no_prefix_no_occurs). fold p. rewrite <- IH by (auto; discriminate).
      destruct (index (join [nl] (l2 :: ls)) p) as [k|]; [|reflexivity]. cbn [option_map].
      set (J := join [nl] (l2 :: ls)).
      assert (S1 : forall m, skipn (length l + 1 + m) (l ++ nl :: J) = skipn m J).
      { intros m. replace (length l + 1 + m) with (length (l ++ [nl]) + m) by (rewrite app_length; reflexivity).
        change (l ++ nl :: J) with (l ++ [nl] ++ J). rewrite app_assoc, skipn_app. replace (length (l ++ [nl]) + m - length (l ++ [nl])) with m by lia.
        now rewrite skipn_all2 by lia. }
      replace (length l + 1 + k + length p) with (length l + 1 + (k + length p)) by lia. rewrite S1. reflexivity.
Qed.
Lemma parse_lines unquote code : tidy_file code -> ParseCoreVersion unquote code =
  match first_line (cw ++ #"VERSION =") (lines code) with
  | None => None
  | Some t => match unquote (trim_space t) with Some [] | None => None | Some v => Some v end
  end.
Proof. intros T. rewrite <- (join_split nl code) at 1. apply index_anchor_join; auto; [apply lines_nonl|apply split_nonempty]. Qed.

Theorem C104_version (unquote : bytes -> option bytes) (code v r n : bytes) :
  tidy_file code -> writable v -> writable r -> writable n ->
  let code' := ReplaceActualXgoVersion code v r n in
  (value #"XGO_VERSION" code <> None -> value #"XGO_VERSION" code' = Some (dq ++ v ++ dq))
  /\ (value #"XGO_REVISION" code <> None -> value #"XGO_REVISION" code' = Some (dq ++ r ++ dq))
  /\ (value #"XGO_NUMBER" code <> None -> value #"XGO_NUMBER" code' = Some n)
  /\ ParseCoreVersion unquote code' = ParseCoreVersion unquote code
  /\ value #"NUMBER" code' = value #"NUMBER" code
  /\ same_but [xv; xr; xn] (lines code) (lines code').
Proof.
  intros T Wv Wr Wn code'. destruct (version_lines code v r n T Wv Wr Wn) as [L T']. fold code' in L, T'.
  unfold value, const_value. change (split nl) with lines. change (#"const " ++ #"XGO_VERSION" ++ #" = ") with xv.
  change (#"const " ++ #"XGO_REVISION" ++ #" = ") with xr. change (#"const " ++ #"XGO_NUMBER" ++ #" = ") with xn.
  split; [|split; [|split; [|split; [|split]]]].
  - intros H. rewrite L, (get_other _ _ _ _ a_nv), (get_other _ _ _ _ a_rv). now apply get_set.
  - intros H. rewrite L, (get_other _ _ _ _ a_nr). apply get_set. now rewrite (get_other _ _ _ _ a_vr).
  - intros H. rewrite L. apply get_set. now rewrite (get_other _ _ _ _ a_rn), (get_other _ _ _ _ a_vn).
  - rewrite (parse_lines _ _ T), (parse_lines _ _ T'), L.
    rewrite (get_other xn), (get_other xr), (get_other xv) by (now apply differ_apart). reflexivity.
  - rewrite L. rewrite (get_other xn), (get_other xr), (get_other xv) by (now apply differ_apart). reflexivity.
  - rewrite L. apply same_set; [right; right; left; reflexivity| |]. { intros q [<- |[<- |[<- |[]]]]; [right; exact a_nv|right; exact a_nr|left; reflexivity]. }
    apply same_set; [right; left; reflexivity| |]. { intros q [<- |[<- |[<- |[]]]]; [right; exact a_rv|left; reflexivity|right; exact a_rn]. }
    apply same_set; [left; reflexivity| |apply same_refl]. intros q [<- |[<- |[<- |[]]]]; [left; reflexivity|right; exact a_vr|right; exact a_vn].
Qed.
(** it can be done again, with the same xgo or another: only the last one counts. *)
Theorem C104_version_again (code v r n v' r' n' : bytes) :
  tidy_file code -> writable v -> writable r -> writable n -> writable v' -> writable r' -> writable n' ->
  ReplaceActualXgoVersion (ReplaceActualXgoVersion code v r n) v' r' n' = ReplaceActualXgoVersion code v' r' n'.
Proof.
  intros T Wv Wr Wn Wv' Wr' Wn'. destruct (version_lines code v r n T Wv Wr Wn) as [L T1].
  destruct (version_lines _ v' r' n' T1 Wv' Wr' Wn') as [L2 _]. destruct (version_lines code v' r' n' T Wv' Wr' Wn') as [L3 _].
  apply lines_inj. rewrite L2, L3, L. rewrite (set_comm _ _ _ _ _ a_vn), (set_comm _ _ _ _ _ a_vr), set_set.
  rewrite (set_comm _ _ _ _ _ a_rn). rewrite set_set. rewrite set_set. reflexivity.
Qed.
(** ** The flags *)
Definition ft := cw ++ #"COLLECT_TEST_TRACE = ".
Definition fd := cw ++ #"COLLECT_TEST_TRACE_DIR = ".
Definition fr := cw ++ #"XGO_RACE_SAFE = ".
Lemma b_td : apart ft fd. Proof. now apply differ_apart. Qed.
Lemma b_tr : apart ft fr. Proof. now apply differ_apart. Qed.
Lemma b_dt : apart fd ft. Proof. now apply differ_apart. Qed.
Lemma b_dr : apart fd fr. Proof. now apply differ_apart. Qed.
Lemma b_rt : apart fr ft. Proof. now apply differ_apart. Qed.
Lemma b_rd : apart fr fd. Proof. now apply differ_apart. Qed.
Lemma bool_writable b : writable (bool_text b).
Proof. split; [destruct b; pat|]. apply index_none_iff. destruct b; reflexivity. Qed.
Lemma flags_lines code t q r : tidy_file code -> writable q ->
  lines (InjectFlags code t q r) = set_line fr (bool_text r) (set_line fd q (set_line ft (bool_text t) (lines code)))
  /\ tidy_file (InjectFlags code t q r).
Proof.
  intros T [Q1 Q2]. destruct (bool_writable t) as [V1 V2]. destruct (bool_writable r) as [N1 N2].
  unfold InjectFlags.
  change #"const COLLECT_TEST_TRACE = " with (cw ++ #"COLLECT_TEST_TRACE = "). change #"const COLLECT_TEST_TRACE_DIR = " with (cw ++ #"COLLECT_TEST_TRACE_DIR = ").
  change #"const XGO_RACE_SAFE = " with (cw ++ #"XGO_RACE_SAFE = ").
  set (c1 := replaceByLine code _ _).
  assert (L1 : lines c1 = set_line ft (bool_text t) (lines code)) by (apply replace_lines; auto; pat).
  assert (T1 : tidy_file c1) by (unfold tidy_file; rewrite L1; apply set_line_tidy; auto; pat).
  set (c2 := replaceByLine c1 _ _).
  assert (L2 : lines c2 = set_line fd q (lines c1)) by (apply replace_lines; auto; pat).
  assert (T2 : tidy_file c2) by (unfold tidy_file; rewrite L2; apply set_line_tidy; auto; pat).
  set (c3 := replaceByLine c2 _ _).
  assert (L3 : lines c3 = set_line fr (bool_text r) (lines c2)) by (apply replace_lines; auto; pat).
  split; [now rewrite L3, L2, L1|]. unfold tidy_file; rewrite L3; apply set_line_tidy; auto; pat.
Qed.
Theorem C104_flags (code : bytes) (trace : bool) (quoted : bytes) (race : bool) :
  tidy_file code -> writable quoted ->
  let code' := InjectFlags code trace quoted race in
  (value #"COLLECT_TEST_TRACE" code <> None -> value #"COLLECT_TEST_TRACE" code' = Some (if trace then #"true" else #"false"))
  /\ (value #"COLLECT_TEST_TRACE_DIR" code <> None -> value #"COLLECT_TEST_TRACE_DIR" code' = Some quoted)
  /\ (value #"XGO_RACE_SAFE" code <> None -> value #"XGO_RACE_SAFE" code' = Some (if race then #"true" else #"false"))
  /\ same_but [ft; fd; fr] (lines code) (lines code')
  /\ forall trace' quoted' race', writable quoted' -> InjectFlags code' trace' quoted' race' = InjectFlags code trace' quoted' race'.
Proof.
  intros T W code'. destruct (flags_lines code trace quoted race T W) as [L T']. fold code' in L, T'.
  unfold value, const_value. change (split nl) with lines. change (#"const " ++ #"COLLECT_TEST_TRACE" ++ #" = ") with ft.
  change (#"const " ++ #"COLLECT_TEST_TRACE_DIR" ++ #" = ") with fd. change (#"const " ++ #"XGO_RACE_SAFE" ++ #" = ") with fr.
  split; [|split; [|split; [|split]]].
  - intros H. rewrite L, (get_other _ _ _ _ b_rt), (get_other _ _ _ _ b_dt). now apply get_set.
  - intros H. rewrite L, (get_other _ _ _ _ b_rd). apply get_set. now rewrite (get_other _ _ _ _ b_td).
  - intros H. rewrite L. apply get_set. now rewrite (get_other _ _ _ _ b_dr), (get_other _ _ _ _ b_tr).
  - rewrite L. apply same_set; [right; right; left; reflexivity| |]. { intros q [<- |[<- |[<- |[]]]]; [right; exact b_rt|right; exact b_rd|left; reflexivity]. }
    apply same_set; [right; left; reflexivity| |]. { intros q [<- |[<- |[<- |[]]]]; [right; exact b_dt|left; reflexivity|right; exact b_dr]. }
    apply same_set; [left; reflexivity| |apply same_refl]. intros q [<- |[<- |[<- |[]]]]; [left; reflexivity|right; exact b_td|right; exact b_tr].
  - intros t' q' r' W'. destruct (flags_lines _ t' q' r' T' W') as [L2 _]. destruct (flags_lines code t' q' r' T W') as [L3 _].
    apply lines_inj. rewrite L2, L3, L. rewrite (set_comm _ _ _ _ _ b_tr), (set_comm _ _ _ _ _ b_td), set_set.
    rewrite (set_comm _ _ _ _ _ b_dr). rewrite set_set. rewrite set_set. reflexivity.
Qed.
Definition ex_flags : bytes := #"package flags" ++ nl :: nl :: #"const COLLECT_TEST_TRACE = false" ++ nl :: #"const COLLECT_TEST_TRACE_DIR = """"" ++ nl :: #"const XGO_RACE_SAFE = false" ++ [nl].
Definition tidy_b (l : bytes) : bool :=
  match index l cw with None => true | Some 0 => match index (skipn 6 l) cw with None => true | _ => false end | _ => false end.
Lemma tidy_by_index l : tidy_b l = true -> tidy l.
Proof.
  unfold tidy_b. intros H O. destruct (index l cw) as [[|]|] eqn:I; try discriminate.
  - apply index_sound in I as (a & b & -> & L). destruct a; [|discriminate]. exists b. split; auto.
    change (skipn 6 ([] ++ cw ++ b)) with b in H. apply index_none_iff. now destruct (index b cw).
  - exfalso. apply index_none_iff in I. auto.
Qed.
Example C104_nontrivial : tidy_file ex_flags /\ writable (dq ++ #"/tmp/out" ++ dq) /\ value #"COLLECT_TEST_TRACE" ex_flags = Some #"false"
  /\ value #"COLLECT_TEST_TRACE_DIR" (InjectFlags ex_flags true (dq ++ #"/tmp/out" ++ dq) false) = Some (dq ++ #"/tmp/out" ++ dq).
Proof.
  split; [|split; [|split; reflexivity]].
  - assert (H : forallb tidy_b (lines ex_flags) = true) by reflexivity. apply Forall_forall. intros l I. rewrite forallb_forall in H. now apply tidy_by_index, H.
  - apply occurs_dq. split; [pat|]. apply index_none_iff. reflexivity.
Qed.
