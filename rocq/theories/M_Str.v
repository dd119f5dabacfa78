(** * Go strings as lists of bytes, with the functions of package strings that the
    modelled code uses. *)
From Coq Require Import Ascii String List Arith Bool Lia.
Import ListNotations.

Definition bytes := list ascii.
Definition lit (s : string) : bytes := list_ascii_of_string s.
Notation "# s" := (lit s%string) (at level 0, s at level 0, format "# s").

Definition eqc (a b : ascii) : bool := Ascii.eqb a b.
Arguments eqc : simpl never.
Fixpoint eqs (a b : bytes) : bool :=
  match a, b with
  | [], [] => true
  | x :: a, y :: b => eqc x y && eqs a b
  | _, _ => false
  end.

(** strings.LastIndex(s, "c") for a one-byte separator, with the text before and
    after it: the index is the length of the first component. *)
Fixpoint cut_last (c : ascii) (s : bytes) : option (bytes * bytes) :=
  match s with
  | [] => None
  | x :: r =>
      match cut_last c r with
      | Some (a, b) => Some (x :: a, b)
      | None => if eqc x c then Some ([], r) else None
      end
  end.

(** strings.Index(s, "c"), likewise. *)
Fixpoint cut_first (c : ascii) (s : bytes) : option (bytes * bytes) :=
  match s with
  | [] => None
  | x :: r => if eqc x c then Some ([], r) else match cut_first c r with Some (a, b) => Some (x :: a, b) | None => None end
  end.

(** strings.HasPrefix. *)
Fixpoint has_prefix (s p : bytes) {struct p} : bool :=
  match p, s with
  | [], _ => true
  | y :: p, x :: s => eqc x y && has_prefix s p
  | _ :: _, [] => false
  end.
Definition has_suffix (s p : bytes) : bool := has_prefix (rev s) (rev p).

(** strings.Index(s, sub) for a general substring. *)
Fixpoint index (s sub : bytes) : option nat :=
  if has_prefix s sub then Some 0
  else match s with [] => None | _ :: r => option_map S (index r sub) end.
Definition contains (s sub : bytes) : bool := match index s sub with Some _ => true | None => false end.
Definition containsc (c : ascii) (s : bytes) : bool := existsb (fun x => eqc x c) s.

(** strings.Split(s, "c") for a one-byte separator. *)
Fixpoint split (c : ascii) (s : bytes) : list bytes :=
  match s with
  | [] => [[]]
  | x :: r =>
      if eqc x c then [] :: split c r
      else match split c r with [] => [[x]] | h :: t => (x :: h) :: t end
  end.
Fixpoint join (c : bytes) (l : list bytes) : bytes :=
  match l with [] => [] | [x] => x | x :: r => x ++ c ++ join c r end.

(** ** Facts *)
Lemma eqc_eq a b : eqc a b = true <-> a = b. Proof. apply Ascii.eqb_eq. Qed.
Lemma eqc_refl a : eqc a a = true. Proof. apply Ascii.eqb_refl. Qed.
Lemma eqc_neq a b : eqc a b = false <-> a <> b. Proof. apply Ascii.eqb_neq. Qed.
Lemma eqs_eq a b : eqs a b = true <-> a = b.
Proof.
  revert b. induction a as [|x a IH]; intros [|y b]; simpl; split; intros H; try discriminate; auto.
  - apply andb_prop in H as [H1 H2]. apply eqc_eq in H1. apply IH in H2. congruence.
  - injection H as -> ->. rewrite eqc_refl. simpl. now apply IH.
Qed.
Lemma eqs_refl a : eqs a a = true. Proof. now apply eqs_eq. Qed.

Lemma containsc_in c s : containsc c s = true <-> In c s.
Proof.
  unfold containsc. rewrite existsb_exists. split.
  - intros (x & I & E). apply eqc_eq in E. now subst.
  - intros I. exists c. split; auto. apply eqc_refl.
Qed.
Lemma containsc_app c a b : containsc c (a ++ b) = containsc c a || containsc c b.
Proof. apply existsb_app. Qed.

Lemma cut_last_none c s : ~ In c s -> cut_last c s = None.
Proof.
  induction s as [|x s IH]; simpl; auto. intros H. rewrite IH by tauto. destruct (eqc x c) eqn:E; auto.
  apply eqc_eq in E. tauto.
Qed.
Lemma cut_last_some c a b : ~ In c b -> cut_last c (a ++ c :: b) = Some (a, b).
Proof.
  intros H. induction a as [|x a IH]; simpl.
  - now rewrite cut_last_none, eqc_refl.
  - now rewrite IH.
Qed.
Lemma cut_last_sound c s a b : cut_last c s = Some (a, b) -> s = a ++ c :: b /\ ~ In c b.
Proof.
  revert a b. induction s as [|x s IH]; simpl; [discriminate|]. intros a b H.
  destruct (cut_last c s) as [[a' b']|] eqn:E.
  - injection H as <- <-. destruct (IH _ _ eq_refl) as [-> N]. auto.
  - destruct (eqc x c) eqn:Ex; [|discriminate]. injection H as <- <-. apply eqc_eq in Ex. subst. split; auto.
    intros I. clear IH. induction s as [|y s IH]; simpl in *; auto.
    destruct (cut_last c s) as [[]|]; [discriminate|]. destruct (eqc y c) eqn:Ey; [discriminate|].
    destruct I as [->|I]; [now rewrite eqc_refl in Ey|auto].
Qed.
Lemma cut_last_none_inv c s : cut_last c s = None -> ~ In c s.
Proof.
  intros H I. apply in_split in I as (a & b & ->).
  induction a as [|x a IH]; simpl in H.
  - destruct (cut_last c b) as [[]|]; [discriminate|]. now rewrite eqc_refl in H.
  - destruct (cut_last c (a ++ c :: b)) as [[]|]; [discriminate|auto].
Qed.
Lemma cut_first_none c s : ~ In c s -> cut_first c s = None.
Proof.
  induction s as [|x s IH]; simpl; auto. intros H. rewrite IH by tauto. destruct (eqc x c) eqn:E; auto.
  apply eqc_eq in E. tauto.
Qed.
Lemma cut_first_some c a b : ~ In c a -> cut_first c (a ++ c :: b) = Some (a, b).
Proof.
  induction a as [|x a IH]; simpl; intros H.
  - now rewrite eqc_refl.
  - destruct (eqc x c) eqn:E; [apply eqc_eq in E; tauto|]. now rewrite IH by tauto.
Qed.
Lemma cut_first_sound c s a b : cut_first c s = Some (a, b) -> s = a ++ c :: b /\ ~ In c a.
Proof.
  revert a b. induction s as [|x s IH]; simpl; [discriminate|]. intros a b H. destruct (eqc x c) eqn:E.
  - injection H as <- <-. apply eqc_eq in E. subst. split; auto.
  - destruct (cut_first c s) as [[a' b']|]; [|discriminate]. injection H as <- <-.
    destruct (IH _ _ eq_refl) as [-> N]. split; auto. intros [->|I]; auto. now rewrite eqc_refl in E.
Qed.

Lemma has_prefix_app s p : has_prefix (p ++ s) p = true.
Proof. induction p as [|x p IH]; simpl; auto. now rewrite eqc_refl. Qed.
Lemma has_prefix_sound s p : has_prefix s p = true -> exists r, s = p ++ r.
Proof.
  revert s. induction p as [|y p IH]; intros s H; [now exists s|]. destruct s as [|x s]; [discriminate|].
  simpl in H. apply andb_prop in H as [E H]. apply eqc_eq in E. destruct (IH s H) as [r ->]. exists r. now subst.
Qed.
Lemma has_prefix_iff s p : has_prefix s p = true <-> exists r, s = p ++ r.
Proof. split; [apply has_prefix_sound|]. intros [r ->]. apply has_prefix_app. Qed.
Lemma has_suffix_iff s p : has_suffix s p = true <-> exists r, s = r ++ p.
Proof.
  unfold has_suffix. rewrite has_prefix_iff. split; intros [r E].
  - exists (rev r). rewrite <- (rev_involutive s), E, rev_app_distr, rev_involutive. reflexivity.
  - exists (rev r). rewrite E, rev_app_distr. reflexivity.
Qed.
Lemma has_suffix_last s c d : has_suffix (s ++ [d]) [c] = eqc d c.
Proof. unfold has_suffix. rewrite rev_app_distr. simpl. now rewrite andb_true_r. Qed.

Lemma index_sound s sub n : index s sub = Some n -> exists a b, s = a ++ sub ++ b /\ length a = n.
Proof.
  revert n. induction s as [|x s IH]; simpl; intros n H.
  - destruct sub; [|discriminate]. injection H as <-. now exists [], [].
  - destruct (has_prefix (x :: s) sub) eqn:E.
    + injection H as <-. apply has_prefix_sound in E as [r E]. exists [], r. auto.
    + destruct (index s sub) as [m|]; [|discriminate]. injection H as <-. destruct (IH m eq_refl) as (a & b & -> & L).
      exists (x :: a), b. simpl. auto.
Qed.
Lemma index_first s sub n : index s sub = Some n -> forall a b, s = a ++ sub ++ b -> n <= length a.
Proof.
  revert n. induction s as [|x s IH]; intros n H a b E.
  - destruct sub; simpl in H; [|discriminate]. injection H as <-. lia.
  - simpl in H. destruct (has_prefix (x :: s) sub) eqn:P; [injection H as <-; lia|].
    destruct (index s sub) as [m|] eqn:Ei; [|discriminate]. injection H as <-.
    destruct a as [|y a].
    + simpl in E. assert (X : has_prefix (x :: s) sub = true) by (rewrite has_prefix_iff; now exists b). congruence.
    + injection E as -> E. simpl. specialize (IH m eq_refl a b E). lia.
Qed.
Lemma index_none s sub : index s sub = None -> forall a b, s <> a ++ sub ++ b.
Proof.
  induction s as [|x s IH]; intros H a b E.
  - destruct a; [|discriminate]. destruct sub; [discriminate|discriminate].
  - simpl in H. destruct (has_prefix (x :: s) sub) eqn:P; [discriminate|].
    destruct (index s sub) as [m|] eqn:Ei; [discriminate|].
    destruct a as [|y a].
    + simpl in E. assert (X : has_prefix (x :: s) sub = true) by (rewrite has_prefix_iff; now exists b). congruence.
    + injection E as -> E. now apply (IH eq_refl a b).
Qed.

Lemma split_nonempty c s : split c s <> [].
Proof. destruct s as [|x s]; simpl; [discriminate|]. destruct (eqc x c); [discriminate|]. now destruct (split c s). Qed.
Lemma split_noc c s : ~ In c s -> split c s = [s].
Proof.
  induction s as [|x s IH]; simpl; auto. intros H. destruct (eqc x c) eqn:E; [apply eqc_eq in E; tauto|].
  now rewrite IH by tauto.
Qed.
Lemma split_cons c a s : ~ In c a -> split c (a ++ c :: s) = a :: split c s.
Proof.
  induction a as [|x a IH]; simpl; intros H.
  - now rewrite eqc_refl.
  - destruct (eqc x c) eqn:E; [apply eqc_eq in E; tauto|]. now rewrite IH by tauto.
Qed.
Lemma join_split c s : join [c] (split c s) = s.
Proof.
  induction s as [|x s IH]; simpl; auto. destruct (eqc x c) eqn:E.
  - apply eqc_eq in E. subst. pose proof (split_nonempty c s). destruct (split c s) as [|h t]; [congruence|].
    change (join [c] ([] :: h :: t)) with (c :: join [c] (h :: t)). now rewrite IH.
  - pose proof (split_nonempty c s). destruct (split c s) as [|h t]; [congruence|]. destruct t; simpl in *; now rewrite <- IH.
Qed.
Lemma split_join c l : l <> [] -> Forall (fun x => ~ In c x) l -> split c (join [c] l) = l.
Proof.
  intros N F. induction F as [|x l Hx F IH]; [congruence|]. destruct l as [|y l].
  - simpl. now apply split_noc.
  - change (join [c] (x :: y :: l)) with (x ++ c :: join [c] (y :: l)). rewrite split_cons by auto. now rewrite IH.
Qed.
Lemma split_no_sep c s x : In x (split c s) -> ~ In c x.
Proof.
  revert x. induction s as [|y s IH]; simpl; intros x H.
  - destruct H as [<-|[]]. auto.
  - destruct (eqc y c) eqn:E.
    + destruct H as [<-|H]; auto.
    + pose proof (split_nonempty c s). destruct (split c s) as [|h t]; [congruence|].
      destruct H as [<-|H]; [|apply IH; now right]. intros [->|I]; [now rewrite eqc_refl in E|]. now apply (IH h (or_introl eq_refl)).
Qed.
