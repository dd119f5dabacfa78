(** * Facts on substring search. *)
From Coq Require Import Ascii String List Arith Bool Lia.
From Verif Require Import M_Str M_Patch.
Import ListNotations.
Open Scope nat_scope.

Definition occurs (w s : bytes) : Prop := exists a b, s = a ++ w ++ b.

Lemma occurs_nil_left w : w <> [] -> ~ occurs w [].
Proof. intros N (a & b & E). destruct a; [|discriminate]. destruct w; [congruence|discriminate]. Qed.
Lemma occurs_app_l w x y : occurs w x -> occurs w (x ++ y).
Proof. intros (a & b & ->). exists a, (b ++ y). now rewrite <- !app_assoc. Qed.
Lemma occurs_app_r w x y : occurs w y -> occurs w (x ++ y).
Proof. intros (a & b & ->). exists (x ++ a), b. now rewrite <- !app_assoc. Qed.
Lemma occurs_trans u v w : occurs u v -> occurs v w -> occurs u w.
Proof. intros (a & b & ->) (c & d & ->). exists (c ++ a), (b ++ d). now rewrite <- !app_assoc. Qed.
Lemma occurs_refl w : occurs w w.
Proof. exists [], []. now rewrite app_nil_r. Qed.
Lemma occurs_prefix u v s : occurs (u ++ v) s -> occurs u s.
Proof. apply occurs_trans. exists [], v. reflexivity. Qed.
Lemma occurs_suffix u v s : occurs (u ++ v) s -> occurs v s.
Proof. apply occurs_trans. exists u, []. now rewrite app_nil_r. Qed.
Lemma occurs_in c w s : occurs (c :: w) s -> In c s.
Proof. intros (a & b & ->). apply in_or_app. right. now left. Qed.

Lemma index_none_iff s w : index s w = None <-> ~ occurs w s.
Proof.
  split.
  - intros H (a & b & E). now apply (index_none _ _ H a b).
  - intros H. destruct (index s w) as [n|] eqn:E; auto. destruct H. apply index_sound in E as (a & b & E & _). now exists a, b.
Qed.
(** Two ways of cutting a list. *)
Lemma app_cut (a b c d : bytes) : a ++ b = c ++ d -> length a <= length c -> exists x, c = a ++ x /\ b = x ++ d.
Proof.
  revert c. induction a as [|y a IH]; intros c E L.
  - now exists c.
  - destruct c as [|z c]; [simpl in L; lia|]. injection E as -> E. simpl in L. destruct (IH c E ltac:(lia)) as (x & -> & ->). now exists x.
Qed.
Lemma index_least s w a b : s = a ++ w ++ b -> (forall a' b', s = a' ++ w ++ b' -> length a <= length a') -> index s w = Some (length a).
Proof.
  intros E M. destruct (index s w) as [n|] eqn:I.
  - f_equal. pose proof (index_first _ _ _ I a b E). apply index_sound in I as (a' & b' & E' & <-). specialize (M a' b' E'). lia.
  - exfalso. apply (index_none _ _ I a b E).
Qed.
(** A word without borders: none of its proper non-empty suffixes is a prefix of it. *)
Definition unbordered (w : bytes) : Prop := forall x y z, w = x ++ y -> w = y ++ z -> x <> [] -> y = [].
Lemma unbordered_first c w : ~ In c w -> unbordered (c :: w).
Proof.
  intros N x y z E1 E2 H. destruct y as [|d y]; auto. exfalso. injection E2 as -> _. destruct x as [|e x]; [congruence|].
  injection E1 as _ E1. apply N. rewrite E1. apply in_or_app. right. now left.
Qed.
Lemma unbordered_last c w : ~ In c w -> unbordered (w ++ [c]).
Proof.
  intros N x y z E1 E2 H. destruct (rev y) as [|d r] eqn:R.
  - rewrite <- (rev_involutive y), R. reflexivity.
  - exfalso. assert (Ey : y = rev r ++ [d]) by (rewrite <- (rev_involutive y), R; reflexivity). subst y.
    rewrite app_assoc in E1. apply app_inj_tail in E1 as [-> ->].
    destruct z as [|e z'] using rev_ind.
    + rewrite app_nil_r in E2. apply (f_equal (@length _)) in E2. rewrite !app_length in E2. simpl in E2. destruct x; [congruence|simpl in E2; lia].
    + rewrite !app_assoc in E2. apply app_inj_tail in E2 as [E2 ->].
      apply N. rewrite E2. rewrite <- app_assoc. apply in_or_app. right. now left.
Qed.
Lemma index_unbordered a w b : unbordered w -> ~ occurs w a -> index (a ++ w ++ b) w = Some (length a).
Proof.
  intros U N. apply (index_least _ _ a b); auto. intros a' b' E. destruct (le_lt_dec (length a) (length a')) as [L|L]; auto. exfalso.
  symmetry in E. destruct (app_cut a' (w ++ b') a (w ++ b) E ltac:(lia)) as (x & -> & E2).
  destruct (le_lt_dec (length w) (length x)) as [Lx|Lx].
  - destruct (app_cut w b' x (w ++ b) E2 Lx) as (y & -> & _). apply N. now exists a', y.
  - symmetry in E2. destruct (app_cut x (w ++ b) w b' E2 ltac:(lia)) as (y & Ew & E3).
    assert (Ly : length y < length w).
    { apply (f_equal (@length _)) in Ew. rewrite app_length in Ew. rewrite app_length in L. lia. }
    destruct (app_cut y b' w b (eq_sym E3) ltac:(lia)) as (z & Ez & _).
    assert (y = []) as -> by (apply (U x y z Ew Ez); intros ->; rewrite app_nil_r in L; lia).
    rewrite app_nil_r in Ew. subst. lia.
Qed.
Lemma index_longer a u v b : unbordered u -> ~ occurs u a -> index (a ++ (u ++ v) ++ b) (u ++ v) = Some (length a).
Proof.
  intros U N. apply (index_least _ _ a b); auto. intros a' b' E.
  apply (index_first (a ++ u ++ v ++ b) u (length a)) with (b := v ++ b').
  - apply index_unbordered; auto.
  - rewrite <- !app_assoc in E. exact E.
Qed.
Lemma index_here w b : index (w ++ b) w = Some 0.
Proof. apply (index_least _ _ [] b); auto. intros. simpl. lia. Qed.

(** A character that is not in the word separates its occurrences. *)
Lemma barrier c w x y : ~ In c w -> w <> [] -> occurs w (x ++ c :: y) -> occurs w x \/ occurs w y.
Proof.
  intros N Nw (a & b & E). destruct (le_lt_dec (length a) (length x)) as [L|L].
  - symmetry in E. destruct (app_cut a (w ++ b) x (c :: y) E L) as (z & -> & E2). destruct (le_lt_dec (length w) (length z)) as [Lz|Lz].
    + destruct (app_cut w b z (c :: y) E2 Lz) as (t & -> & _). left. exists a, t. reflexivity.
    + exfalso. symmetry in E2. destruct (app_cut z (c :: y) w b E2 ltac:(lia)) as (t & -> & E3).
      destruct t as [|d t]; [rewrite app_nil_r in Lz; lia|]. injection E3 as -> _. apply N. apply in_or_app. right. now left.
  - right. destruct (app_cut x (c :: y) a (w ++ b) E ltac:(lia)) as (z & -> & E2). destruct z as [|d z]; [rewrite app_nil_r in L; lia|].
    injection E2 as -> ->. now exists z, b.
Qed.
Lemma not_barrier c w x y : ~ In c w -> w <> [] -> ~ occurs w x -> ~ occurs w y -> ~ occurs w (x ++ c :: y).
Proof. intros N Nw Hx Hy H. destruct (barrier c w x y N Nw H); auto. Qed.
(** A word whose first character stands only at the head of a text with another second
    character. *)
Lemma not_occurs_head c d e w s : d <> e -> ~ In c (e :: s) -> ~ occurs (c :: d :: w) (c :: e :: s).
Proof.
  intros N I (a & b & E). destruct a as [|x a].
  - injection E as E _. congruence.
  - injection E as -> E. apply I. rewrite E. apply in_or_app. right. now left.
Qed.

Lemma skipn_app_exact {A} (a b : list A) n : n = length a -> skipn n (a ++ b) = b.
Proof. intros ->. induction a; simpl; auto. Qed.
Lemma firstn_app_exact {A} (a b : list A) n : n = length a -> firstn n (a ++ b) = a.
Proof. intros ->. induction a; simpl; f_equal; auto. Qed.
Lemma slice_app a b c i j : i = length a -> j = length a + length b -> slice (a ++ b ++ c) i j = b.
Proof.
  intros -> ->. unfold slice. rewrite (skipn_app_exact a) by reflexivity.
  replace (length a + length b - length a) with (length b) by lia. now apply firstn_app_exact.
Qed.
Lemma eqs_false a b : eqs a b = false <-> a <> b.
Proof. destruct (eqs a b) eqn:E; split; intros H; try congruence; try (apply eqs_eq in E; congruence). intros ->. now rewrite eqs_refl in E. Qed.
