(** * C29, C40: version comparison.  Model: M_Version. *)
From Coq Require Import Ascii String List Arith Bool Lia.
From Verif Require Import M_Str M_Version.
Import ListNotations.
Open Scope nat_scope.

(** ** Specification *)
(** A total order, as a comparison function. *)
Record total_order {A} (c : A -> A -> comparison) : Prop := {
  to_sym : forall x y, c y x = CompOpp (c x y);
  to_trans : forall x y z, c x y = Lt -> c y z = Lt -> c x z = Lt;
  to_eq : forall x y, c x y = Eq <-> x = y
}.
(** A total preorder: as before, but different things may compare equal. *)
Definition total_preorder {A} (c : A -> A -> comparison) : Prop :=
  (forall x, c x x = Eq) /\ (forall x y, c y x = CompOpp (c x y)) /\
  (forall x y z, c x y <> Gt -> c y z <> Gt -> c x z <> Gt) /\
  (forall x y z, c x y = Lt -> c y z <> Gt -> c x z = Lt) /\
  (forall x y z, c x y <> Gt -> c y z = Lt -> c x z = Lt).

(** The number a decimal text denotes. *)
Definition digit_value (c : ascii) : nat := nat_of_ascii c - 48.
Fixpoint dec_from (acc : nat) (x : bytes) : nat := match x with [] => acc | c :: r => dec_from (10 * acc + digit_value c) r end.
Definition dec (x : bytes) : nat := dec_from 0 x.
(** A decimal numeral without superfluous zeros. *)
Definition numeral (x : bytes) : Prop :=
  x <> [] /\ Forall (fun c => is_digit c = true) x /\ (forall r, x = "0"%char :: r -> r = []).

(** Lexicographic combination. *)
Definition lex (a b : comparison) : comparison := match a with Eq => b | _ => a end.
Definition cmp_opt {A} (c : A -> A -> comparison) (x y : option A) : comparison :=
  match x, y with None, None => Eq | None, _ => Lt | _, None => Gt | Some x, Some y => c x y end.
Fixpoint cmp_list {A} (c : A -> A -> comparison) (x y : list A) : comparison :=
  match x, y with
  | [], [] => Eq | [], _ => Lt | _, [] => Gt
  | a :: x, b :: y => lex (c a b) (cmp_list c x y)
  end.

(** *** Go toolchain versions: 1, 1.20, 1.21.3, 1.21rc2, 1.9beta *)
Inductive go_version :=
| GoMajor (a : bytes)
| GoMinor (a b : bytes)
| GoPatch (a b c : bytes)
| GoPre (a b kind : bytes) (n : option bytes).
Definition go_ok (v : go_version) : Prop :=
  match v with
  | GoMajor a => numeral a
  | GoMinor a b => numeral a /\ numeral b
  | GoPatch a b c => numeral a /\ numeral b /\ numeral c
  | GoPre a b k n => numeral a /\ numeral b /\ k <> [] /\ Forall (fun c => is_lower c = true) k /\
                     match n with Some n => numeral n | None => True end
  end.
Definition go_text (v : go_version) : bytes :=
  match v with
  | GoMajor a => a
  | GoMinor a b => a ++ #"." ++ b
  | GoPatch a b c => a ++ #"." ++ b ++ #"." ++ c
  | GoPre a b k n => a ++ #"." ++ b ++ k ++ match n with Some n => n | None => [] end
  end.
(** What is compared: the numbers; a missing patch number is 0 before 1.21 and below
    every patch number from 1.21 on; a prerelease has no patch number. *)
Definition go_major (v : go_version) := match v with GoMajor a | GoMinor a _ | GoPatch a _ _ | GoPre a _ _ _ => dec a end.
Definition go_minor (v : go_version) := match v with GoMajor _ => 0 | GoMinor _ b | GoPatch _ b _ | GoPre _ b _ _ => dec b end.
Definition go_patch (v : go_version) : option nat :=
  match v with
  | GoMajor _ => Some 0
  | GoMinor _ b => if dec b <? 21 then Some 0 else None
  | GoPatch _ _ c => Some (dec c)
  | GoPre _ _ _ _ => None
  end.
Definition go_kind (v : go_version) : bytes := match v with GoPre _ _ k _ => k | _ => [] end.
Definition go_pre (v : go_version) : option nat := match v with GoPre _ _ _ (Some n) => Some (dec n) | _ => None end.
Definition go_cmp (v w : go_version) : comparison :=
  lex (Nat.compare (go_major v) (go_major w))
    (lex (Nat.compare (go_minor v) (go_minor w))
      (lex (cmp_opt Nat.compare (go_patch v) (go_patch w))
        (lex (str_cmp (go_kind v) (go_kind w)) (cmp_opt Nat.compare (go_pre v) (go_pre w))))).

(** *** Semantic versions v1.2.3-rc.1+build *)
Definition ident_cmp (a b : bytes) : comparison :=
  match is_num a, is_num b with
  | true, true => Nat.compare (dec a) (dec b)
  | true, false => Lt
  | false, true => Gt
  | false, false => str_cmp a b
  end.
(** A version without prerelease is above all its prereleases. *)
Definition pre_cmp (a b : list bytes) : comparison :=
  match a, b with
  | [], [] => Eq | [], _ => Gt | _, [] => Lt
  | _, _ => cmp_list ident_cmp a b
  end.
Record sem_version := Sem { sm_major : bytes; sm_minor : bytes; sm_patch : bytes; sm_pre : list bytes; sm_build : list bytes }.
Definition pre_ident (x : bytes) : Prop :=
  x <> [] /\ Forall (fun c => is_ident_char c = true) x /\ (is_num x = true -> numeral x).
Definition sem_ok (v : sem_version) : Prop :=
  numeral (sm_major v) /\ numeral (sm_minor v) /\ numeral (sm_patch v) /\
  Forall pre_ident (sm_pre v) /\ Forall (fun x => x <> [] /\ Forall (fun c => is_ident_char c = true) x) (sm_build v).
Definition sem_text (v : sem_version) : bytes :=
  #"v" ++ sm_major v ++ #"." ++ sm_minor v ++ #"." ++ sm_patch v ++
  match sm_pre v with [] => [] | l => #"-" ++ join #"." l end ++
  match sm_build v with [] => [] | l => #"+" ++ join #"." l end.
Definition sem_cmp (v w : sem_version) : comparison :=
  lex (Nat.compare (dec (sm_major v)) (dec (sm_major w)))
    (lex (Nat.compare (dec (sm_minor v)) (dec (sm_minor w)))
      (lex (Nat.compare (dec (sm_patch v)) (dec (sm_patch w)))
        (pre_cmp (sm_pre v) (sm_pre w)))).

(** ** Orders *)
Lemma nat_order : total_order Nat.compare.
Proof.
  constructor.
  - intros x y. apply Nat.compare_antisym.
  - intros x y z H1 H2. apply Nat.compare_lt_iff in H1, H2. apply Nat.compare_lt_iff. lia.
  - apply Nat.compare_eq_iff.
Qed.
Lemma lex_order {A B} (c : A -> A -> comparison) (d : B -> B -> comparison) :
  total_order c -> total_order d -> total_order (fun x y => lex (c (fst x) (fst y)) (d (snd x) (snd y))).
Proof.
  intros [S1 T1 E1] [S2 T2 E2]. constructor.
  - intros [a b] [a' b']. simpl. rewrite (S1 a a'), (S2 b b'). now destruct (c a a').
  - intros [a b] [a' b'] [a'' b'']. simpl. unfold lex. intros H1 H2.
    destruct (c a a') eqn:Q1; try discriminate.
    + apply E1 in Q1. subst a'. destruct (c a a'') eqn:Q2; try discriminate; auto. eapply T2; eauto.
    + destruct (c a' a'') eqn:Q2; try discriminate.
      * apply E1 in Q2. subst a''. now rewrite Q1.
      * now rewrite (T1 a a' a'' Q1 Q2).
  - intros [a b] [a' b']. simpl. unfold lex. split.
    + destruct (c a a') eqn:Q1; try discriminate. intros H. apply E1 in Q1. apply E2 in H. congruence.
    + intros H. injection H as -> ->. replace (c a' a') with Eq by (symmetry; now apply E1). now apply E2.
Qed.
Lemma map_order {A B} (f : A -> B) c : total_order c -> (forall x y, f x = f y -> x = y) -> total_order (fun x y => c (f x) (f y)).
Proof.
  intros [S T E] I. constructor; auto.
  - intros x y z. apply T.
  - intros x y. rewrite E. split; [apply I|congruence].
Qed.
Lemma map_preorder {A B} (f : A -> B) c : total_order c -> total_preorder (fun x y => c (f x) (f y)).
Proof.
  intros [S T E].
  assert (R : forall x, c x x = Eq) by (intros; now apply E).
  repeat split; auto; intros x y z H1 H2.
  - destruct (c (f x) (f y)) eqn:Q1; [apply E in Q1; now rewrite Q1| |congruence].
    destruct (c (f y) (f z)) eqn:Q2; [apply E in Q2; rewrite <- Q2; congruence| |congruence].
    rewrite (T _ _ _ Q1 Q2). discriminate.
  - destruct (c (f y) (f z)) eqn:Q2; [apply E in Q2; now rewrite <- Q2| |congruence]. eapply T; eauto.
  - destruct (c (f x) (f y)) eqn:Q1; [apply E in Q1; now rewrite Q1| |congruence]. eapply T; eauto.
Qed.
Lemma order_ext {A} (c d : A -> A -> comparison) : (forall x y, c x y = d x y) -> total_order d -> total_order c.
Proof. intros H [S T E]. constructor; intros *; rewrite !H; auto. apply T. Qed.
Lemma preorder_ext {A} (c d : A -> A -> comparison) : (forall x y, c x y = d x y) -> total_preorder d -> total_preorder c.
Proof.
  intros H (R & S & T1 & T2 & T3).
  repeat split; [intros x|intros x y|intros x y z|intros x y z|intros x y z]; rewrite !H; auto; [apply T1|apply T2|apply T3].
Qed.
Lemma list_order {A} (c : A -> A -> comparison) : total_order c -> total_order (cmp_list c).
Proof.
  intros [S T E]. constructor.
  - induction x as [|a x IH]; intros [|b y]; simpl; auto. rewrite (S a b), IH. now destruct (c a b).
  - induction x as [|a x IH]; intros [|b y] [|d z]; simpl; auto; try discriminate. unfold lex. intros H1 H2.
    destruct (c a b) eqn:Q1; try discriminate.
    + apply E in Q1. subst b. destruct (c a d); auto; try discriminate. eapply IH; eauto.
    + destruct (c b d) eqn:Q2; try discriminate.
      * apply E in Q2. subst d. now rewrite Q1.
      * now rewrite (T a b d Q1 Q2).
  - induction x as [|a x IH]; intros [|b y]; simpl; split; intros H; try discriminate; auto.
    + unfold lex in H. destruct (c a b) eqn:Q; try discriminate. apply E in Q. apply IH in H. congruence.
    + injection H as -> ->. replace (c b b) with Eq by (symmetry; now apply E). simpl. now apply IH.
Qed.
Lemma str_cmp_list x y : str_cmp x y = cmp_list (fun a b => Nat.compare (nat_of_ascii a) (nat_of_ascii b)) x y.
Proof. revert y. induction x as [|a x IH]; intros [|b y]; simpl; auto. rewrite IH. unfold lex. now destruct (nat_of_ascii a ?= nat_of_ascii b). Qed.
Lemma ascii_order : total_order (fun a b => Nat.compare (nat_of_ascii a) (nat_of_ascii b)).
Proof.
  apply (map_order nat_of_ascii); [apply nat_order|]. intros x y H.
  rewrite <- (ascii_nat_embedding x), <- (ascii_nat_embedding y). congruence.
Qed.
Lemma str_order : total_order str_cmp.
Proof. apply (order_ext _ _ str_cmp_list). apply list_order, ascii_order. Qed.
Lemma cmp_int_alt x y : cmp_int x y = lex (Nat.compare (length x) (length y)) (str_cmp x y).
Proof.
  unfold cmp_int. destruct (eqs x y) eqn:E.
  - apply eqs_eq in E. subst. rewrite Nat.compare_refl. simpl. symmetry. now apply str_order.
  - destruct (length x <? length y) eqn:L1; [apply Nat.ltb_lt in L1; replace (length x ?= length y) with Lt; auto; symmetry; now apply Nat.compare_lt_iff|].
    destruct (length y <? length x) eqn:L2; [apply Nat.ltb_lt in L2; replace (length x ?= length y) with Gt; auto; symmetry; now apply Nat.compare_gt_iff|].
    apply Nat.ltb_ge in L1, L2. replace (length x ?= length y) with Eq by (symmetry; apply Nat.compare_eq_iff; lia). simpl.
    unfold str_lt. destruct (str_cmp x y) eqn:Q; auto. apply str_order in Q. subst. now rewrite eqs_refl in E.
Qed.
Lemma cmp_int_order : total_order cmp_int.
Proof.
  apply (order_ext _ _ cmp_int_alt).
  apply (map_order (fun x : bytes => (length x, x)) (fun p q => lex (Nat.compare (fst p) (fst q)) (str_cmp (snd p) (snd q)))).
  - apply lex_order; [apply nat_order|apply str_order].
  - intros x y H. congruence.
Qed.
Lemma compare_string_alt x y : compare_string x y = str_cmp x y.
Proof.
  unfold compare_string, str_lt. rewrite (to_sym _ str_order x y). now destruct (str_cmp x y).
Qed.

(** ** Go versions: order *)
Definition gover_key (v : gover) := (v_major v, (v_minor v, (v_patch v, (v_kind v, v_pre v)))).
Lemma compare_version_alt x y : compare_version x y =
  (fun p q => lex (cmp_int (fst p) (fst q)) (lex (cmp_int (fst (snd p)) (fst (snd q))) (lex (cmp_int (fst (snd (snd p))) (fst (snd (snd q))))
     (lex (str_cmp (fst (snd (snd (snd p)))) (fst (snd (snd (snd q))))) (cmp_int (snd (snd (snd (snd p)))) (snd (snd (snd (snd q)))))))))
  (gover_key (parse_version x)) (gover_key (parse_version y)).
Proof. unfold compare_version, gover_key. simpl. rewrite compare_string_alt. reflexivity. Qed.
Lemma gover_order : total_order
  (fun p q : bytes * (bytes * (bytes * (bytes * bytes))) => lex (cmp_int (fst p) (fst q)) (lex (cmp_int (fst (snd p)) (fst (snd q))) (lex (cmp_int (fst (snd (snd p))) (fst (snd (snd q))))
     (lex (str_cmp (fst (snd (snd (snd p)))) (fst (snd (snd (snd q))))) (cmp_int (snd (snd (snd (snd p)))) (snd (snd (snd (snd q))))))))).
Proof.
  apply (lex_order cmp_int (fun p q => lex (cmp_int (fst p) (fst q)) (lex (cmp_int (fst (snd p)) (fst (snd q))) (lex (str_cmp (fst (snd (snd p))) (fst (snd (snd q)))) (cmp_int (snd (snd (snd p))) (snd (snd (snd q)))))))); [apply cmp_int_order|].
  apply (lex_order cmp_int (fun p q => lex (cmp_int (fst p) (fst q)) (lex (str_cmp (fst (snd p)) (fst (snd q))) (cmp_int (snd (snd p)) (snd (snd q)))))); [apply cmp_int_order|].
  apply (lex_order cmp_int (fun p q => lex (str_cmp (fst p) (fst q)) (cmp_int (snd p) (snd q)))); [apply cmp_int_order|].
  apply (lex_order str_cmp cmp_int); [apply str_order|apply cmp_int_order].
Qed.

(** For all texts, valid or not: a total preorder; two texts compare equal exactly when
    they parse to the same version. *)
Theorem C29_total_preorder :
  total_preorder compare_version /\
  (forall x y, compare_version x y = Eq <-> parse_version x = parse_version y).
Proof.
  split.
  - apply (preorder_ext _ _ compare_version_alt).
    exact (map_preorder (fun x => gover_key (parse_version x)) _ gover_order).
  - intros x y. rewrite compare_version_alt, (to_eq _ gover_order). unfold gover_key.
    destruct (parse_version x), (parse_version y); simpl. split; intros H; [injection H as -> -> -> -> ->|injection H as -> -> -> -> ->]; reflexivity.
Qed.
Print Assumptions C29_total_preorder.

(** ** Numerals *)
Lemma dec_from_app acc x : dec_from acc x = acc * 10 ^ length x + dec x.
Proof.
  unfold dec. revert acc. induction x as [|c x IH]; intros acc; cbn [dec_from length]; [simpl; lia|].
  rewrite (IH (10 * acc + _)), (IH (10 * 0 + _)). rewrite Nat.pow_succ_r'. lia.
Qed.
Lemma dec_cons c x : dec (c :: x) = digit_value c * 10 ^ length x + dec x.
Proof. unfold dec at 1. cbn [dec_from]. now rewrite dec_from_app. Qed.
Lemma digit_lt c : is_digit c = true -> digit_value c < 10.
Proof. unfold is_digit, digit_value. intros H. apply andb_prop in H as [A B]. apply Nat.leb_le in A, B. lia. Qed.
Lemma dec_lt x : Forall (fun c => is_digit c = true) x -> dec x < 10 ^ length x.
Proof.
  induction 1 as [|c x H F IH]; [unfold dec; simpl; lia|]. rewrite dec_cons. cbn [length]. rewrite Nat.pow_succ_r'.
  pose proof (digit_lt c H). nia.
Qed.
Lemma digit_pos c : is_digit c = true -> c <> "0"%char -> 1 <= digit_value c.
Proof.
  unfold is_digit, digit_value. intros H N. apply andb_prop in H as [A B]. apply Nat.leb_le in A, B.
  destruct (Nat.eq_dec (nat_of_ascii c) 48) as [E|]; [|lia]. exfalso. apply N.
  rewrite <- (ascii_nat_embedding c), E. reflexivity.
Qed.
Lemma same_length_cmp x y : length x = length y -> Forall (fun c => is_digit c = true) x -> Forall (fun c => is_digit c = true) y ->
  str_cmp x y = Nat.compare (dec x) (dec y).
Proof.
  revert y. induction x as [|a x IH]; intros [|b y] L Fx Fy; simpl in L; try discriminate; auto.
  inversion Fx as [|? ? Ha Fx']; inversion Fy as [|? ? Hb Fy']; subst. injection L as L. cbn [str_cmp].
  rewrite !dec_cons. pose proof (dec_lt x Fx') as Lx. pose proof (dec_lt y Fy') as Ly. rewrite <- L in *.
  assert (Da : nat_of_ascii a = digit_value a + 48).
  { unfold is_digit, digit_value in *. apply andb_prop in Ha as [A _]. apply Nat.leb_le in A. lia. }
  assert (Db : nat_of_ascii b = digit_value b + 48).
  { unfold is_digit, digit_value in *. apply andb_prop in Hb as [A _]. apply Nat.leb_le in A. lia. }
  destruct (nat_of_ascii a ?= nat_of_ascii b) eqn:C.
  - apply Nat.compare_eq_iff in C. replace (digit_value b) with (digit_value a) by lia. rewrite IH by auto.
    destruct (dec x ?= dec y) eqn:Q; symmetry.
    + apply Nat.compare_eq_iff in Q. apply Nat.compare_eq_iff. lia.
    + apply Nat.compare_lt_iff in Q. apply Nat.compare_lt_iff. lia.
    + apply Nat.compare_gt_iff in Q. apply Nat.compare_gt_iff. lia.
  - symmetry. apply Nat.compare_lt_iff in C. apply Nat.compare_lt_iff. nia.
  - symmetry. apply Nat.compare_gt_iff in C. apply Nat.compare_gt_iff. nia.
Qed.
Lemma shorter_lt x y : numeral x -> numeral y -> length x < length y -> dec x < dec y.
Proof.
  intros (Nx & Fx & _) (Ny & Fy & Zy) L. pose proof (dec_lt x Fx) as Lx.
  destruct y as [|c y]; [congruence|]. inversion Fy as [|? ? Hc Fy']; subst. rewrite dec_cons. simpl in L.
  assert (P : 1 <= digit_value c).
  { apply digit_pos; auto. intros ->. specialize (Zy y eq_refl). subst y. simpl in L. destruct x; [congruence|simpl in L; lia]. }
  assert (10 ^ length x <= 10 ^ length y) by (apply Nat.pow_le_mono_r; lia). nia.
Qed.
Lemma cmp_int_dec x y : numeral x -> numeral y -> cmp_int x y = Nat.compare (dec x) (dec y).
Proof.
  intros Hx Hy. rewrite cmp_int_alt. destruct (length x ?= length y) eqn:L; simpl.
  - apply Nat.compare_eq_iff in L. apply same_length_cmp; auto; [apply Hx|apply Hy].
  - symmetry. apply Nat.compare_lt_iff in L. apply Nat.compare_lt_iff. now apply shorter_lt.
  - symmetry. apply Nat.compare_gt_iff in L. apply Nat.compare_gt_iff. now apply shorter_lt.
Qed.

Lemma span_app p a b : Forall (fun c => p c = true) a -> (match b with [] => True | c :: _ => p c = false end) -> span p (a ++ b) = (a, b).
Proof.
  induction 1 as [|c a H F IH]; intros B; simpl.
  - destruct b; auto. simpl. now rewrite B.
  - rewrite H, IH by auto. reflexivity.
Qed.
Lemma cut_int_app a b : numeral a -> (match b with [] => True | c :: _ => is_digit c = false end) -> cut_int (a ++ b) = Some (a, b).
Proof.
  intros (N & F & Z) B. unfold cut_int. rewrite span_app by auto. destruct a as [|c a]; [congruence|].
  destruct (eqc c "0"%char) eqn:E; auto. apply eqc_eq in E. subst. rewrite (Z a eq_refl). reflexivity.
Qed.
Lemma numeral_21 : numeral #"21". Proof. split; [discriminate|]. split; [repeat constructor|]. discriminate. Qed.
Lemma numeral_0 : numeral #"0". Proof. split; [discriminate|]. split; [repeat constructor|]. intros r H. now injection H as <-. Qed.
Lemma lower_not_digit c : is_lower c = true -> is_digit c = false.
Proof. unfold is_lower, is_digit. intros H. apply andb_prop in H as [A B]. apply Nat.leb_le in A. apply andb_false_intro2. apply Nat.leb_gt. lia. Qed.

Definition opt_text (n : option bytes) : bytes := match n with Some n => n | None => [] end.
Lemma parse_go_text v : go_ok v ->
  parse_version (go_text v) =
  match v with
  | GoMajor a => Gover a #"0" #"0" [] []
  | GoMinor a b => Gover a b (if dec b <? 21 then #"0" else []) [] []
  | GoPatch a b c => Gover a b c [] []
  | GoPre a b k n => Gover a b [] k (opt_text n)
  end.
Proof.
  unfold parse_version. destruct v as [a|a b|a b c|a b k n]; simpl go_ok; simpl go_text.
  - intros Ha. rewrite <- (app_nil_r a) at 1. rewrite cut_int_app by auto. reflexivity.
  - intros [Ha Hb]. rewrite cut_int_app by auto. change (#"." ++ b) with ("."%char :: b). cbn [negb]. rewrite eqc_refl. cbn [negb].
    rewrite <- (app_nil_r b) at 1. rewrite cut_int_app by auto. rewrite (cmp_int_dec b #"21" Hb numeral_21).
    change (dec #"21") with 21. f_equal. destruct (dec b ?= 21) eqn:Q.
    + apply Nat.compare_eq_iff in Q. rewrite Q. reflexivity.
    + apply Nat.compare_lt_iff in Q. apply Nat.ltb_lt in Q. now rewrite Q.
    + apply Nat.compare_gt_iff in Q. replace (dec b <? 21) with false by (symmetry; apply Nat.ltb_ge; lia). reflexivity.
  - intros (Ha & Hb & Hc). rewrite cut_int_app by auto. change (#"." ++ b ++ #"." ++ c) with ("."%char :: b ++ "."%char :: c).
    rewrite eqc_refl. cbn [negb]. rewrite cut_int_app by auto. rewrite eqc_refl.
    rewrite <- (app_nil_r c) at 1. rewrite cut_int_app by auto. reflexivity.
  - intros (Ha & Hb & Nk & Fk & Hn). rewrite cut_int_app by auto.
    change (#"." ++ b ++ k ++ match n with Some n0 => n0 | None => [] end) with ("."%char :: b ++ (k ++ opt_text n)).
    rewrite eqc_refl. cbn [negb].
    assert (B : match k ++ opt_text n with [] => True | c :: _ => is_digit c = false end).
    { destruct k as [|c k]; [congruence|]. simpl. inversion Fk; subst. now apply lower_not_digit. }
    rewrite cut_int_app by auto. destruct k as [|c k]; [congruence|]. cbn [app].
    replace (eqc c "."%char) with false by (symmetry; apply eqc_neq; intros ->; inversion Fk; subst; discriminate).
    change (c :: k ++ opt_text n) with ((c :: k) ++ opt_text n).
    match goal with |- context [span ?p ?l] => change l with ((c :: k) ++ opt_text n) end. rewrite span_app.
    + replace (forallb is_lower (c :: k)) with true by (symmetry; rewrite forallb_forall; rewrite Forall_forall in Fk; auto). cbn [negb].
      destruct n as [n|]; simpl opt_text; [|reflexivity]. pose proof (cut_int_app n [] Hn I) as CI. rewrite app_nil_r in CI. rewrite CI.
      destruct Hn as [Hn _]. destruct n; [congruence|reflexivity].
    + eapply Forall_impl; [|exact Fk]. simpl. intros x X. now rewrite lower_not_digit.
    + destruct n as [n|]; simpl; auto. destruct Hn as (Nn & Fn & _). destruct n; auto. inversion Fn; subst. now rewrite H1.
Qed.

Definition opt_num (x : bytes) : option nat := match x with [] => None | _ => Some (dec x) end.
Lemma cmp_int_opt x y : (x = [] \/ numeral x) -> (y = [] \/ numeral y) -> cmp_int x y = cmp_opt Nat.compare (opt_num x) (opt_num y).
Proof.
  intros [->|Hx] [->|Hy].
  - reflexivity.
  - destruct y; [now destruct Hy|reflexivity].
  - destruct x; [now destruct Hx|reflexivity].
  - rewrite cmp_int_dec by auto. destruct x; [now destruct Hx|]. destruct y; [now destruct Hy|]. reflexivity.
Qed.
Lemma lex_then a b : then_cmp a b = lex a b. Proof. now destruct a. Qed.
Lemma opt_num_some n : numeral n -> opt_num n = Some (dec n). Proof. intros [N _]. destruct n; [congruence|reflexivity]. Qed.

(** Valid Go versions compare by their numbers. *)
Theorem C29_agrees_with_numbers :
  forall v w, go_ok v -> go_ok w -> compare_version (go_text v) (go_text w) = go_cmp v w.
Proof.
  intros v w Hv Hw. unfold compare_version. rewrite (parse_go_text v Hv), (parse_go_text w Hw).
  set (pv := match v with GoMajor a => _ | _ => _ end). set (pw := match w with GoMajor a => _ | _ => _ end).
  assert (K : forall v pv, go_ok v -> pv = match v with
      | GoMajor a => Gover a #"0" #"0" [] []
      | GoMinor a b => Gover a b (if dec b <? 21 then #"0" else []) [] []
      | GoPatch a b c => Gover a b c [] []
      | GoPre a b k n => Gover a b [] k (opt_text n) end ->
    numeral (v_major pv) /\ numeral (v_minor pv) /\ (v_patch pv = [] \/ numeral (v_patch pv)) /\ (v_pre pv = [] \/ numeral (v_pre pv)) /\
    dec (v_major pv) = go_major v /\ dec (v_minor pv) = go_minor v /\ opt_num (v_patch pv) = go_patch v /\ v_kind pv = go_kind v /\ opt_num (v_pre pv) = go_pre v).
  { clear. intros v pv H ->. destruct v as [a|a b|a b c|a b k n]; simpl in *.
    - repeat split; auto using numeral_0; try apply H; try (apply numeral_0); right; apply numeral_0.
    - destruct H as [Ha Hb]. destruct (dec b <? 21); simpl; auto 20 using numeral_0.
    - destruct H as (Ha & Hb & Hc). rewrite opt_num_some by auto. auto 20.
    - destruct H as (Ha & Hb & Nk & Fk & Hn). destruct n as [n|]; simpl; [rewrite opt_num_some by auto|]; auto 20. }
  destruct (K v pv Hv eq_refl) as (A1 & A2 & A3 & A4 & A5 & A6 & A7 & A8 & A9).
  destruct (K w pw Hw eq_refl) as (B1 & B2 & B3 & B4 & B5 & B6 & B7 & B8 & B9).
  clearbody pv pw. rewrite !lex_then, compare_string_alt.
  rewrite (cmp_int_dec (v_major pv)), (cmp_int_dec (v_minor pv)), (cmp_int_opt (v_patch pv)), (cmp_int_opt (v_pre pv)) by auto.
  unfold go_cmp. rewrite A5, A6, A7, A8, A9, B5, B6, B7, B8, B9. reflexivity.
Qed.
Print Assumptions C29_agrees_with_numbers.

(** Texts that are no version are below every version. *)
Theorem C29_invalid_lowest :
  forall x w, go_ok w -> parse_version x = no_version -> compare_version x (go_text w) = Lt.
Proof.
  intros x w Hw E. unfold compare_version. rewrite E, (parse_go_text w Hw).
  assert (N : v_major (match w with
      | GoMajor a => Gover a #"0" #"0" [] []
      | GoMinor a b => Gover a b (if dec b <? 21 then #"0" else []) [] []
      | GoPatch a b c => Gover a b c [] []
      | GoPre a b k n => Gover a b [] k (opt_text n) end) <> []).
  { destruct w; simpl in *; destruct Hw; auto; now destruct H. }
  destruct (v_major _) as [|c m]; [congruence|]. reflexivity.
Qed.
Print Assumptions C29_invalid_lowest.

Example C29_example :
  compare_version #"1.9" #"1.10" = Lt /\ compare_version #"1.21" #"1.21rc2" = Lt /\ compare_version #"1.21rc2" #"1.21.0" = Lt /\
  compare_version #"1.20" #"1.20.0" = Eq /\ compare_version #"1.20rc1" #"1.20" = Lt /\
  go_ok (GoPre #"1" #"21" #"rc" (Some #"2")) /\ go_text (GoPre #"1" #"21" #"rc" (Some #"2")) = #"1.21rc2".
Proof.
  repeat split; try reflexivity; try discriminate; try (repeat constructor; fail); intros r H; discriminate.
Qed.

(** ** Semantic versions *)
Lemma cut_int_rest x d r : cut_int x = Some (d, r) -> numeral d /\ x = d ++ r.
Proof.
  unfold cut_int. destruct (span is_digit x) as [a b] eqn:S. intros H.
  assert (G : x = a ++ b /\ Forall (fun c => is_digit c = true) a).
  { clear H. revert a b S. induction x as [|c x IH]; intros a b S; simpl in S.
    - injection S as <- <-. auto.
    - destruct (is_digit c) eqn:Dc.
      + destruct (span is_digit x) as [a' b'] eqn:S'. injection S as <- <-. destruct (IH a' b' eq_refl) as [-> F]. auto.
      + injection S as <- <-. auto. }
  destruct G as [-> F]. destruct a as [|c a]; [discriminate|].
  destruct (eqc c "0"%char && negb (length a =? 0)) eqn:Z; [discriminate|]. injection H as <- <-. split; auto.
  split; [discriminate|]. split; auto. intros r' E. injection E as -> ->. rewrite eqc_refl in Z. simpl in Z.
  destruct r'; auto. discriminate.
Qed.

(** Comparison of identifier lists as the loop does it. *)
Definition enc (c : ascii) (l : list bytes) : bytes := match l with [] => [] | _ => c :: join #"." l end.
Lemma span_ident d l : ~ In "."%char d -> span (fun c => negb (eqc c "."%char)) (join #"." (d :: l)) = (d, enc "."%char l).
Proof.
  intros N.
  assert (F : Forall (fun c => negb (eqc c "."%char) = true) d).
  { apply Forall_forall. intros c I. apply negb_true_iff, eqc_neq. intros ->. contradiction. }
  destruct l as [|e l].
  - simpl join. rewrite <- (app_nil_r d) at 1. rewrite span_app; auto.
  - change (join #"." (d :: e :: l)) with (d ++ "."%char :: join #"." (e :: l)). rewrite span_app; auto.
Qed.
Definition ident_step (a b : bytes) : comparison := if eqs a b then Eq else ident_diff a b.
Lemma pre_loop_spec n : forall l m c d, length l + length m < n -> Forall (fun x => ~ In "."%char x) l -> Forall (fun x => ~ In "."%char x) m ->
  l <> m -> pre_loop n (enc c l) (enc d m) = cmp_list ident_step l m.
Proof.
  induction n as [|n IH]; intros l m c d L Fl Fm N; [lia|].
  destruct l as [|x l]; [destruct m; [congruence|reflexivity]|].
  destruct m as [|y m]; [reflexivity|].
  change (enc c (x :: l)) with (c :: join #"." (x :: l)). change (enc d (y :: m)) with (d :: join #"." (y :: m)).
  cbn [pre_loop]. inversion Fl; inversion Fm; subst. rewrite !span_ident by auto. cbn [cmp_list]. unfold ident_step at 1.
  destruct (eqs x y) eqn:E.
  - cbn [lex]. apply IH; auto; [simpl in L; lia|]. apply eqs_eq in E. congruence.
  - destruct (ident_diff x y) eqn:Q; [|reflexivity|reflexivity]. exfalso. unfold ident_diff in Q. destruct (negb (Bool.eqb (is_num x) (is_num y))); [destruct (is_num x); discriminate|].
    destruct (is_num x && (length x <? length y)); [discriminate|]. destruct (is_num x && (length y <? length x)); [discriminate|].
    destruct (str_lt x y); discriminate.
Qed.
Lemma ident_step_alt x y : ident_step x y =
  (fun p q : nat * (nat * bytes) => lex (Nat.compare (fst p) (fst q)) (lex (Nat.compare (fst (snd p)) (fst (snd q))) (str_cmp (snd (snd p)) (snd (snd q)))))
    (if is_num x then 0 else 1, (if is_num x then length x else 0, x)) (if is_num y then 0 else 1, (if is_num y then length y else 0, y)).
Proof.
  unfold ident_step. destruct (eqs x y) eqn:E.
  - apply eqs_eq in E. subst. cbn [fst snd]. rewrite !Nat.compare_refl. simpl. symmetry. now apply str_order.
  - assert (SL : (if str_lt x y then Lt else Gt) = str_cmp x y).
    { unfold str_lt. destruct (str_cmp x y) eqn:Q; auto. apply str_order in Q. subst. now rewrite eqs_refl in E. }
    unfold ident_diff. cbn [fst snd]. destruct (is_num x), (is_num y); cbn [Bool.eqb negb andb]; try reflexivity.
    + simpl (0 ?= 0). cbn [lex].
      destruct (length x <? length y) eqn:L1; [apply Nat.ltb_lt in L1; replace (length x ?= length y) with Lt; auto; symmetry; now apply Nat.compare_lt_iff|].
      destruct (length y <? length x) eqn:L2; [apply Nat.ltb_lt in L2; replace (length x ?= length y) with Gt; auto; symmetry; now apply Nat.compare_gt_iff|].
      apply Nat.ltb_ge in L1, L2. replace (length x ?= length y) with Eq by (symmetry; apply Nat.compare_eq_iff; lia). simpl. exact SL.
    + simpl. exact SL.
Qed.
Lemma ident_step_order : total_order ident_step.
Proof.
  apply (order_ext _ _ ident_step_alt).
  apply (map_order (fun x : bytes => (if is_num x then 0 else 1, (if is_num x then length x else 0, x)))
    (fun p q : nat * (nat * bytes) => lex (Nat.compare (fst p) (fst q)) (lex (Nat.compare (fst (snd p)) (fst (snd q))) (str_cmp (snd (snd p)) (snd (snd q)))))).
  - apply (lex_order Nat.compare (fun p q => lex (Nat.compare (fst p) (fst q)) (str_cmp (snd p) (snd q)))); [apply nat_order|].
    apply lex_order; [apply nat_order|apply str_order].
  - intros x y H. congruence.
Qed.
Lemma is_num_forall x : is_num x = true -> Forall (fun c => is_digit c = true) x.
Proof. unfold is_num. rewrite forallb_forall. apply Forall_forall. Qed.
Lemma ident_step_cmp x y : pre_ident x -> pre_ident y -> ident_step x y = ident_cmp x y.
Proof.
  intros (_ & _ & Nx) (_ & _ & Ny). rewrite ident_step_alt. unfold ident_cmp. cbn [fst snd].
  destruct (is_num x), (is_num y); try reflexivity.
  - simpl (0 ?= 0). cbn [lex]. rewrite <- cmp_int_dec by auto. now rewrite cmp_int_alt.
Qed.

(** Prerelease parts of parsed versions. *)
Lemma compare_prerelease_spec l m : Forall (fun x => ~ In "."%char x) l -> Forall (fun x => ~ In "."%char x) m ->
  compare_prerelease (enc "-"%char l) (enc "-"%char m) =
  match l, m with [], [] => Eq | [], _ => Gt | _, [] => Lt | _, _ => cmp_list ident_step l m end.
Proof.
  intros Fl Fm. unfold compare_prerelease.
  assert (I : enc "-"%char l = enc "-"%char m <-> l = m).
  { split; [|congruence]. unfold enc. destruct l as [|x l], m as [|y m]; try discriminate; auto. intros H. injection H as H.
    change (join #"." (x :: l)) with (join ["."%char] (x :: l)) in H. change (join #"." (y :: m)) with (join ["."%char] (y :: m)) in H.
    rewrite <- (split_join "."%char (x :: l)), <- (split_join "."%char (y :: m)) by (auto; discriminate). f_equal. exact H. }
  destruct (eqs (enc "-"%char l) (enc "-"%char m)) eqn:E.
  - apply eqs_eq, I in E. subst. destruct m; auto. symmetry. now apply (to_eq _ (list_order _ ident_step_order)).
  - assert (N : l <> m) by (intros ->; now rewrite eqs_refl in E).
    destruct l as [|x l]; [destruct m; [congruence|reflexivity]|]. destruct m as [|y m]; [reflexivity|].
    set (a := enc "-"%char (x :: l)). set (b := enc "-"%char (y :: m)).
    assert (Ea : exists a', a = "-"%char :: a') by (eexists; reflexivity). assert (Eb : exists b', b = "-"%char :: b') by (eexists; reflexivity).
    assert (G : pre_loop (S (length a + length b)) a b = cmp_list ident_step (x :: l) (y :: m)).
    { assert (LJ : forall l : list bytes, length l <= length (join #"." l) + 1).
      { clear. induction l as [|x l IH]; simpl; auto. destruct l as [|y l]; [simpl; lia|]. rewrite app_length. simpl length in *. lia. }
      apply pre_loop_spec; auto. pose proof (LJ (x :: l)). pose proof (LJ (y :: m)).
      assert (La : length a = S (length (join #"." (x :: l)))) by reflexivity. assert (Lb : length b = S (length (join #"." (y :: m)))) by reflexivity.
      eapply Nat.le_lt_trans; [apply Nat.add_le_mono; [exact H|exact H0]|]. unfold lt. rewrite La, Lb. lia. }
    destruct Ea as [a' ->], Eb as [b' ->]. exact G.
Qed.

Lemma parse_prerelease_shape v p r : parse_prerelease v = Some (p, r) ->
  exists l, p = enc "-"%char l /\ l <> [] /\ Forall (fun x => ~ In "."%char x) l.
Proof.
  unfold parse_prerelease. destruct v as [|c v]; [discriminate|]. destruct (eqc c "-"%char) eqn:E; [|discriminate].
  apply eqc_eq in E. subst. destruct (span _ v) as [body rest].
  destruct (forallb (ident_ok true) (split "."%char body)); [|discriminate]. intros H. injection H as <- <-.
  exists (split "."%char body). pose proof (split_nonempty "."%char body) as N. split; [|split; auto].
  - unfold enc. destruct (split "."%char body) eqn:Q; [congruence|]. rewrite <- Q. f_equal. symmetry. exact (join_split "."%char body).
  - apply Forall_forall. intros x. apply split_no_sep.
Qed.
Lemma parse_semver_shape v s : parse_semver v = Some s ->
  numeral (s_major s) /\ numeral (s_minor s) /\ numeral (s_patch s) /\
  exists l, s_pre s = enc "-"%char l /\ Forall (fun x => ~ In "."%char x) l.
Proof.
  unfold parse_semver. destruct v as [|c v]; [discriminate|]. destruct (negb (eqc c "v"%char)); [discriminate|].
  destruct (cut_int v) as [[major v1]|] eqn:C1; [|discriminate]. apply cut_int_rest in C1 as [M1 _].
  destruct v1 as [|c1 v1]; [intros H; injection H as <-; simpl; repeat split; auto using numeral_0; try apply M1; try apply numeral_0; now exists []|].
  destruct (negb (eqc c1 "."%char)); [discriminate|].
  destruct (cut_int v1) as [[minor v2]|] eqn:C2; [|discriminate]. apply cut_int_rest in C2 as [M2 _].
  destruct v2 as [|c2 v2]; [intros H; injection H as <-; simpl; split; auto; split; auto; split; [apply numeral_0|now exists []]|].
  destruct (negb (eqc c2 "."%char)); [discriminate|].
  destruct (cut_int v2) as [[patch v3]|] eqn:C3; [|discriminate]. apply cut_int_rest in C3 as [M3 _].
  destruct (match v3 with c :: _ => if eqc c "-"%char then parse_prerelease v3 else Some ([], v3) | [] => Some ([], []) end) as [[pre v4]|] eqn:P; [|discriminate].
  destruct (match v4 with c :: _ => if eqc c "+"%char then parse_build v4 else Some ([], v4) | [] => Some ([], []) end) as [[build v5]|]; [|discriminate].
  destruct v5; [|discriminate]. intros H. injection H as <-. simpl. split; auto. split; auto. split; auto.
  destruct v3 as [|c3 v3]; [injection P as <- <-; now exists []|]. destruct (eqc c3 "-"%char); [|injection P as <- <-; now exists []].
  apply parse_prerelease_shape in P as (l & -> & _ & F). eauto.
Qed.

(** What the comparison depends on, and a total order of it. *)
Definition pre_of (x : bytes) : list bytes := match x with [] => [] | _ :: r => split "."%char r end.
Definition pre_flip (l : list bytes) : option (list bytes) := match l with [] => None | _ => Some l end.
Definition cmp_top {A} (c : A -> A -> comparison) (x y : option A) : comparison :=
  match x, y with None, None => Eq | None, _ => Gt | _, None => Lt | Some x, Some y => c x y end.
Lemma top_order {A} (c : A -> A -> comparison) : total_order c -> total_order (cmp_top c).
Proof.
  intros [S T E]. constructor.
  - intros [x|] [y|]; simpl; auto.
  - intros [x|] [y|] [z|]; simpl; auto; try discriminate. apply T.
  - intros [x|] [y|]; simpl; split; intros H; try discriminate; auto; [apply E in H; congruence|apply E; congruence].
Qed.
Lemma opt_order {A} (c : A -> A -> comparison) : total_order c -> total_order (cmp_opt c).
Proof.
  intros [S T E]. constructor.
  - intros [x|] [y|]; simpl; auto.
  - intros [x|] [y|] [z|]; simpl; auto; try discriminate. apply T.
  - intros [x|] [y|]; simpl; split; intros H; try discriminate; auto; [apply E in H; congruence|apply E; congruence].
Qed.
Definition sem_key (s : semver) := (s_major s, (s_minor s, (s_patch s, pre_flip (pre_of (s_pre s))))).
Definition key_cmp := fun p q : bytes * (bytes * (bytes * option (list bytes))) =>
  lex (cmp_int (fst p) (fst q)) (lex (cmp_int (fst (snd p)) (fst (snd q))) (lex (cmp_int (fst (snd (snd p))) (fst (snd (snd q))))
    (cmp_top (cmp_list ident_step) (snd (snd (snd p))) (snd (snd (snd q)))))).
Lemma key_order : total_order key_cmp.
Proof.
  unfold key_cmp.
  apply (lex_order cmp_int (fun p q => lex (cmp_int (fst p) (fst q)) (lex (cmp_int (fst (snd p)) (fst (snd q))) (cmp_top (cmp_list ident_step) (snd (snd p)) (snd (snd q)))))); [apply cmp_int_order|].
  apply (lex_order cmp_int (fun p q => lex (cmp_int (fst p) (fst q)) (cmp_top (cmp_list ident_step) (snd p) (snd q)))); [apply cmp_int_order|].
  apply (lex_order cmp_int (cmp_top (cmp_list ident_step))); [apply cmp_int_order|]. apply top_order, list_order, ident_step_order.
Qed.
Lemma pre_of_enc l : Forall (fun x => ~ In "."%char x) l -> pre_of (enc "-"%char l) = l.
Proof.
  intros F. destruct l as [|x l]; auto. unfold enc, pre_of. apply (split_join "."%char (x :: l)); auto. discriminate.
Qed.
Lemma compare_semver_alt v w : compare_semver v w = cmp_opt key_cmp (option_map sem_key (parse_semver v)) (option_map sem_key (parse_semver w)).
Proof.
  unfold compare_semver. destruct (parse_semver v) as [a|] eqn:Ea, (parse_semver w) as [b|] eqn:Eb; auto.
  apply parse_semver_shape in Ea as (_ & _ & _ & l & El & Fl), Eb as (_ & _ & _ & m & Em & Fm).
  assert (P : compare_prerelease (s_pre a) (s_pre b) = cmp_top (cmp_list ident_step) (pre_flip (pre_of (s_pre a))) (pre_flip (pre_of (s_pre b)))).
  { rewrite El, Em, !pre_of_enc, compare_prerelease_spec by auto. destruct l, m; reflexivity. }
  rewrite P. unfold option_map, cmp_opt, key_cmp, sem_key. cbn [fst snd].
  destruct (cmp_int (s_major a) (s_major b)), (cmp_int (s_minor a) (s_minor b)), (cmp_int (s_patch a) (s_patch b)); reflexivity.
Qed.

(** For all texts: a total preorder, invalid texts lowest; equal exactly when both are
    invalid or all numbers and the prerelease agree (the build part is ignored). *)
Theorem C40_semver_total_preorder :
  total_preorder compare_semver /\
  (forall v w, compare_semver v w = Eq <->
     match parse_semver v, parse_semver w with
     | None, None => True
     | Some a, Some b => s_major a = s_major b /\ s_minor a = s_minor b /\ s_patch a = s_patch b /\ s_pre a = s_pre b
     | _, _ => False
     end) /\
  (forall v w, parse_semver v = None -> parse_semver w <> None -> compare_semver v w = Lt).
Proof.
  split; [|split].
  - apply (preorder_ext _ _ compare_semver_alt).
    exact (map_preorder (fun v => option_map sem_key (parse_semver v)) _ (opt_order _ key_order)).
  - intros v w. rewrite compare_semver_alt, (to_eq _ (opt_order _ key_order)).
    destruct (parse_semver v) as [a|] eqn:Ea, (parse_semver w) as [b|] eqn:Eb; simpl; try (split; [discriminate|tauto]); [|tauto].
    apply parse_semver_shape in Ea as (_ & _ & _ & l & El & Fl), Eb as (_ & _ & _ & m & Em & Fm).
    unfold sem_key. rewrite El, Em, !pre_of_enc by auto. split.
    + intros H. injection H as H1 H2 H3 H4. repeat split; auto. destruct l, m; simpl in H4; try discriminate; auto. congruence.
    + intros (-> & -> & -> & H). do 4 f_equal. rewrite <- (pre_of_enc l), <- (pre_of_enc m), H by auto. reflexivity.
  - intros v w Hv Hw. rewrite compare_semver_alt, Hv. destruct (parse_semver w); [reflexivity|congruence].
Qed.
Print Assumptions C40_semver_total_preorder.

(** Parsing what a version is written as. *)
Lemma ident_char_not c : is_ident_char c = true -> c <> "."%char /\ c <> "+"%char.
Proof. intros H. split; intros ->; discriminate. Qed.
Lemma pre_ident_ok x : pre_ident x -> ident_ok true x = true.
Proof.
  intros (N & F & Z). unfold ident_ok. destruct x as [|c x]; [congruence|].
  replace (forallb is_ident_char (c :: x)) with true by (symmetry; apply forallb_forall; rewrite Forall_forall in F; auto).
  cbn [andb]. apply negb_true_iff. unfold is_bad_num. destruct x as [|d x]; auto.
  destruct (forallb is_digit (c :: d :: x)) eqn:D; auto. destruct (eqc c "0"%char) eqn:E; auto.
  apply eqc_eq in E. subst. destruct (Z D) as (_ & _ & Z'). now specialize (Z' (d :: x) eq_refl).
Qed.
Lemma no_dot x : Forall (fun c => is_ident_char c = true) x -> ~ In "."%char x.
Proof. intros F I. rewrite Forall_forall in F. specialize (F _ I). discriminate. Qed.
Lemma join_chars l : Forall (fun x => Forall (fun c => is_ident_char c = true) x) l ->
  Forall (fun c => c <> "+"%char) (join #"." l).
Proof.
  induction 1 as [|x l F Fl IH]; simpl; auto.
  assert (Fx : Forall (fun c => c <> "+"%char) x) by (eapply Forall_impl; [|exact F]; simpl; intros c C; now apply ident_char_not).
  destruct l; auto. apply Forall_app. split; auto. constructor; [discriminate|exact IH].
Qed.
Lemma parse_sem_text v : sem_ok v ->
  parse_semver (sem_text v) = Some (Semver (sm_major v) (sm_minor v) (sm_patch v) (enc "-"%char (sm_pre v)) (enc "+"%char (sm_build v))).
Proof.
  destruct v as [a b c pre build]. unfold sem_ok, sem_text. simpl sm_major. simpl sm_minor. simpl sm_patch. simpl sm_pre. simpl sm_build.
  intros (Ha & Hb & Hc & Hp & Hbd).
  match goal with |- parse_semver ?t = _ =>
    assert (ET : t = "v"%char :: a ++ "."%char :: b ++ "."%char :: c ++ enc "-"%char pre ++ enc "+"%char build) by (destruct pre, build; reflexivity);
    rewrite ET; clear ET end.
  unfold parse_semver.
  cbn beta iota. rewrite eqc_refl. cbn [negb]. rewrite cut_int_app by auto. rewrite eqc_refl. cbn [negb]. rewrite cut_int_app by auto.
  rewrite eqc_refl. cbn [negb]. rewrite cut_int_app by (auto; destruct pre; simpl; auto; destruct build; simpl; auto).
  assert (P : match enc "-"%char pre ++ enc "+"%char build with
              | c :: _ => if eqc c "-"%char then parse_prerelease (enc "-"%char pre ++ enc "+"%char build) else Some ([], enc "-"%char pre ++ enc "+"%char build)
              | [] => Some ([], []) end = Some (enc "-"%char pre, enc "+"%char build)).
  { destruct pre as [|x pre].
    - simpl. destruct build as [|y build]; [reflexivity|]. reflexivity.
    - replace (enc "-"%char (x :: pre) ++ enc "+"%char build) with ("-"%char :: (join #"." (x :: pre) ++ enc "+"%char build)) by reflexivity.
      cbn beta iota. rewrite eqc_refl. unfold parse_prerelease. rewrite eqc_refl. rewrite span_app.
      + change (join #"." (x :: pre)) with (join ["."%char] (x :: pre)) at 1. rewrite (split_join "."%char (x :: pre)).
        * replace (forallb (ident_ok true) (x :: pre)) with true; [reflexivity|].
          symmetry. apply forallb_forall. intros y I. apply pre_ident_ok. rewrite Forall_forall in Hp. auto.
        * discriminate.
        * eapply Forall_impl; [|exact Hp]. simpl. intros y (_ & F & _). now apply no_dot.
      + eapply Forall_impl; [|apply (join_chars (x :: pre))].
        * simpl. intros y Y. apply negb_true_iff, eqc_neq, Y.
        * eapply Forall_impl; [|exact Hp]. now intros y (_ & F & _).
      + destruct build; simpl; auto. }
  match goal with |- match ?t with _ => _ end = _ => replace t with (Some (enc "-"%char pre, enc "+"%char build)) by (symmetry; exact P) end. cbn beta iota.
  assert (B : match enc "+"%char build with
              | c :: _ => if eqc c "+"%char then parse_build (enc "+"%char build) else Some ([], enc "+"%char build)
              | [] => Some ([], []) end = Some (enc "+"%char build, [])).
  { destruct build as [|y build]; [reflexivity|].
    replace (enc "+"%char (y :: build)) with ("+"%char :: join #"." (y :: build)) by reflexivity. cbn beta iota. rewrite eqc_refl. unfold parse_build. rewrite eqc_refl.
    change (join #"." (y :: build)) with (join ["."%char] (y :: build)) at 1. rewrite (split_join "."%char (y :: build)).
    - replace (forallb (ident_ok false) (y :: build)) with true; [reflexivity|].
      symmetry. apply forallb_forall. intros z I. rewrite Forall_forall in Hbd. destruct (Hbd z I) as [N F].
      unfold ident_ok. destruct z as [|c0 z]; [congruence|].
      replace (forallb is_ident_char (c0 :: z)) with true by (symmetry; apply forallb_forall; rewrite Forall_forall in F; auto). reflexivity.
    - discriminate.
    - eapply Forall_impl; [|exact Hbd]. simpl. intros z (_ & F). now apply no_dot. }
  match goal with |- match ?t with _ => _ end = _ => replace t with (Some (enc "+"%char build, @nil ascii)) by (symmetry; exact B) end.
  reflexivity.
Qed.

(** Valid semantic versions compare by their numbers, then by the prerelease rules; the
    build part does not matter. *)
Theorem C40_semver_agrees :
  forall v w, sem_ok v -> sem_ok w -> compare_semver (sem_text v) (sem_text w) = sem_cmp v w.
Proof.
  intros v w Hv Hw. unfold compare_semver. rewrite (parse_sem_text v Hv), (parse_sem_text w Hw). cbn [s_major s_minor s_patch s_pre].
  destruct Hv as (A1 & A2 & A3 & A4 & _), Hw as (B1 & B2 & B3 & B4 & _). rewrite !cmp_int_dec by auto.
  assert (P : compare_prerelease (enc "-"%char (sm_pre v)) (enc "-"%char (sm_pre w)) = pre_cmp (sm_pre v) (sm_pre w));
    [|rewrite P; unfold sem_cmp; repeat (match goal with |- context [Nat.compare ?a ?b] => destruct (Nat.compare a b) end); reflexivity].
  rewrite compare_prerelease_spec.
  - unfold pre_cmp. assert (G : cmp_list ident_step (sm_pre v) (sm_pre w) = cmp_list ident_cmp (sm_pre v) (sm_pre w)).
    { clear -A4 B4. revert B4. generalize (sm_pre w). induction A4 as [|x l Hx F IH]; intros [|y m] B4; auto.
      inversion B4; subst. cbn [cmp_list]. rewrite (ident_step_cmp x y) by auto. now rewrite IH. }
    destruct (sm_pre v), (sm_pre w); auto.
  - eapply Forall_impl; [|exact A4]. simpl. intros y (_ & F & _). now apply no_dot.
  - eapply Forall_impl; [|exact B4]. simpl. intros y (_ & F & _). now apply no_dot.
Qed.
Print Assumptions C40_semver_agrees.

Example C40_example :
  compare_semver #"v1.0.0-alpha.beta" #"v1.0.0-beta" = Lt /\ compare_semver #"v1.0.0-beta.2" #"v1.0.0-beta.11" = Lt /\
  compare_semver #"v1.0.0-rc.1" #"v1.0.0" = Lt /\ compare_semver #"v1.2" #"v1.2.0+x" = Eq /\ compare_semver #"1.0" #"v0.0.1" = Lt /\
  sem_text (Sem #"1" #"0" #"0" [#"beta"; #"11"] []) = #"v1.0.0-beta.11".
Proof. repeat split; vm_compute; reflexivity. Qed.
