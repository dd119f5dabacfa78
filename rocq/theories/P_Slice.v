From Coq Require Import List Arith Bool Lia.
From Verif Require Import M_Slice.
Import ListNotations.

Lemma copied_all cancels hs s l : range_copied cancels hs s = Some l -> l = hs.
Proof.
  revert s l. induction hs as [|h hs IH]; simpl; intros s l H.
  - now injection H as <-.
  - destruct (cancel_all (cancels h) s) as [s'|]; [|discriminate].
    destruct (range_copied cancels hs s') eqn:E; simpl in H; [|discriminate].
    injection H as <-. f_equal. eauto.
Qed.

Lemma copied_dispatch cancels local global l :
  global <> [] -> dispatch cancels local global = Some l -> l = elems local ++ global.
Proof.
  unfold dispatch. destruct global as [|g gl]; [congruence|]. intros _ H.
  unfold elems in *. destruct (len local).
  - apply copied_all in H. exact H.
  - apply copied_all in H. exact H.
Qed.

(** Cancelling only the current last element never writes the array. *)
Definition pops_only (s : slice) (cs : list nat) : Prop :=
  exists s', cancel_all cs s = Some s' /\ arr s' = arr s.

Lemma aliased_nowrite cancels k : forall i s l,
  (forall h s1 s2, cancel_all (cancels h) s1 = Some s2 -> arr s2 = arr s1) ->
  i + k <= length (arr s) ->
  range_aliased cancels k i s = Some l -> l = firstn k (skipn i (arr s)).
Proof.
  induction k as [|k IH]; simpl; intros i s l NW L H.
  - now injection H as <-.
  - destruct (cancel_all (cancels (nth i (arr s) 0)) s) as [s'|] eqn:E; [|discriminate].
    destruct (range_aliased cancels k (S i) s') as [l'|] eqn:R; simpl in H; [|discriminate].
    injection H as <-. apply NW in E. apply IH in R; auto; rewrite E in *; [|lia].
    rewrite R. clear - L.
    assert (X : skipn i (arr s) = nth i (arr s) 0 :: skipn (S i) (arr s)).
    { revert i L. generalize (arr s) as a. induction a as [|x a IHa]; intros i L; simpl in *; [lia|].
      destruct i; simpl; auto. apply IHa. lia. }
    rewrite X. reflexivity.
Qed.

Lemma no_cancel_all s : cancel_all [] s = Some s. Proof. reflexivity. Qed.

Lemma nocancel_dispatch cancels local l :
  (forall h, cancels h = []) -> len local <= length (arr local) ->
  dispatch cancels local [] = Some l -> l = elems local.
Proof.
  intros NC L H. unfold dispatch in H. apply aliased_nowrite in H; auto.
  intros h s1 s2 E. rewrite NC in E. simpl in E. now injection E as <-.
Qed.

(** As list operation, cancel removes exactly c, wherever it is. *)
Lemma find_index_some c l i : find_index c l = Some i ->
  exists a b, l = a ++ c :: b /\ length a = i /\ ~ In c a.
Proof.
  revert i. induction l as [|x l IH]; simpl; intros i H; [discriminate|].
  destruct (x =? c) eqn:E.
  - injection H as <-. apply Nat.eqb_eq in E; subst. exists [], l. auto.
  - destruct (find_index c l) as [j|]; simpl in H; [|discriminate]. injection H as <-.
    destruct (IH j eq_refl) as (a & b & -> & <- & N). exists (x :: a), b. repeat split; auto.
    intros [->|X]; [rewrite Nat.eqb_refl in E; discriminate|tauto].
Qed.

Lemma find_index_none c l : find_index c l = None -> ~ In c l.
Proof.
  induction l as [|x l IH]; simpl; intros H; [tauto|].
  destruct (x =? c) eqn:E; [discriminate|].
  destruct (find_index c l); [discriminate|]. apply Nat.eqb_neq in E. intuition.
Qed.

Lemma elems_snoc s m : len s = S m -> S m <= length (arr s) ->
  elems s = firstn m (arr s) ++ [nth m (arr s) 0].
Proof.
  unfold elems. intros -> L. revert L. generalize (arr s) as a. revert m.
  induction m as [|m IH]; intros [|x a] L; simpl in *; try lia; auto.
  f_equal. apply IH. lia.
Qed.

Lemma cancel_elems c s s' : NoDup (elems s) -> len s <= length (arr s) -> cancel c s = Some s' ->
  exists a b, elems s = a ++ c :: b /\ elems s' = a ++ b /\ length (arr s') = length (arr s).
Proof.
  unfold cancel. intros ND L H. destruct (len s) as [|m] eqn:El; [discriminate|].
  pose proof (elems_snoc s m El L) as ES.
  destruct (nth m (arr s) 0 =? c) eqn:E.
  - injection H as <-. apply Nat.eqb_eq in E. rewrite E in ES.
    exists (firstn m (arr s)), []. repeat split; auto. unfold elems; simpl. now rewrite app_nil_r.
  - destruct (find_index c (elems s)) as [i|] eqn:F; [|discriminate].
    assert (Hs : s' = Slice (firstn i (arr s) ++ firstn (m - i) (skipn (S i) (arr s)) ++ skipn m (arr s)) m) by congruence.
    clear H; subst s'.
    apply find_index_some in F as (a & b & Eab & La & Na).
    assert (Hi : i < m).
    { assert (length (elems s) = S m) by (unfold elems; rewrite firstn_length; lia).
      rewrite Eab, app_length in H. simpl in H. apply Nat.eqb_neq in E.
      destruct b as [|y b].
      - exfalso. rewrite Eab in ES. apply app_inj_tail in ES as [_ ES]. congruence.
      - simpl in H. lia. }
    exists a, b. split; [exact Eab|].
    assert (Ea : firstn i (arr s) = a).
    { unfold elems in Eab. rewrite El in Eab.
      transitivity (firstn i (firstn (S m) (arr s))).
      - rewrite firstn_firstn. f_equal. lia.
      - rewrite Eab, <- La. rewrite firstn_app, firstn_all, Nat.sub_diag. simpl. now rewrite app_nil_r. }
    assert (Eb : firstn (m - i) (skipn (S i) (arr s)) = b).
    { assert (X : skipn (S i) (firstn (S m) (arr s)) = b).
      { unfold elems in Eab. rewrite El in Eab. rewrite Eab, <- La.
        replace (S (length a)) with (length (a ++ [c])) by (rewrite app_length; simpl; lia).
        replace (a ++ c :: b) with ((a ++ [c]) ++ b) by (rewrite <- app_assoc; reflexivity).
        rewrite skipn_app, skipn_all, Nat.sub_diag. reflexivity. }
      rewrite skipn_firstn_comm in X. replace (S m - S i) with (m - i) in X by lia. exact X. }
    rewrite Ea, Eb. cbn [arr len]. split.
    + unfold elems; simpl.
      assert (Lab : length (a ++ b) = m).
      { assert (length (elems s) = S m) by (unfold elems; rewrite firstn_length; lia).
        rewrite Eab, app_length in H. simpl in H. rewrite app_length. lia. }
      rewrite app_assoc, firstn_app, Lab, Nat.sub_diag. simpl. rewrite app_nil_r.
      rewrite <- Lab. apply firstn_all.
    + rewrite !app_length, skipn_length.
      assert (length (elems s) = S m) by (unfold elems; rewrite firstn_length; lia).
      rewrite Eab, app_length in H. simpl in H. lia.
Qed.
