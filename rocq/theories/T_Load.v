(** * C78: reading and parsing the packages *)
From Coq Require Import List Arith Bool Lia Permutation.
From Verif Require Import M_Load.
Import ListNotations.

(** ** Specification *)
(** What may be seen after any number of steps of the main goroutine, [io] readers and [cpu] parsers, in any
    interleaving. *)
Inductive seen (readable parses : file -> bool) (io cpu : nat) (files : list file) : lstate -> Prop :=
| seen_init : seen readable parses io cpu files (linit files io cpu)
| seen_step s s' : seen readable parses io cpu files s -> lstep readable parses io cpu s s' -> seen readable parses io cpu files s'.
Definition returned (s : lstate) (kept : list file) : Prop := main s = Returned kept.

(** ** Proofs *)
Definition rhand (x : reader) : list file := match x with RRead f | RSend f => [f] | _ => [] end.
Definition phand (x : parser) : list file := match x with PParse f | PSet f => [f] | _ => [] end.
Definition rhands (l : list reader) : list file := flat_map rhand l.
Definition phands (l : list parser) : list file := flat_map phand l.
Definition sending (k : main_) : list file := match k with Sending _ f _ => [f] | _ => [] end.
Definition unsent (k : main_) : list file := match k with Adding _ t | Sending _ _ t => t | _ => [] end.
Definition inflight (s : lstate) : list file := sending (main s) ++ readq s ++ rhands (readers s) ++ parseq s ++ phands (parsers s).
Lemma nth_split_at {A} (l : list A) : forall i x, nth_error l i = Some x -> l = firstn i l ++ x :: skipn (S i) l.
Proof. induction l as [|y l IH]; intros [|i] x E; try discriminate; cbn in *; [now injection E as ->|]. f_equal. now apply IH. Qed.
Lemma set_nth_length {A} (l : list A) i x y : nth_error l i = Some x -> length (set_nth l i y) = length l.
Proof. intros E. rewrite (nth_split_at l i x E) at 2. unfold set_nth. rewrite !app_length. reflexivity. Qed.
Lemma set_nth_In {A} (l : list A) i x y z : nth_error l i = Some x -> In z (set_nth l i y) -> z = y \/ In z l.
Proof. intros E I. unfold set_nth in I. apply in_app_or in I as [I|[I|I]]; auto; right; rewrite (nth_split_at l i x E); apply in_or_app; cbn; auto. Qed.
Lemma hands_split {A} (h : A -> list file) l i x : nth_error l i = Some x -> Permutation (flat_map h l) (h x ++ flat_map h (firstn i l ++ skipn (S i) l)).
Proof. intros E. rewrite (nth_split_at l i x E) at 1. rewrite !flat_map_app. cbn [flat_map]. rewrite !app_assoc. apply Permutation_app_tail. apply Permutation_app_comm. Qed.
Lemma hands_set {A} (h : A -> list file) l i y : Permutation (flat_map h (set_nth l i y)) (h y ++ flat_map h (firstn i l ++ skipn (S i) l)).
Proof. unfold set_nth. rewrite !flat_map_app. cbn [flat_map]. rewrite !app_assoc. apply Permutation_app_tail. apply Permutation_app_comm. Qed.
Lemma flat_repeat {A} (h : A -> list file) x n : h x = [] -> flat_map h (repeat x n) = [].
Proof. intros H. induction n; cbn; rewrite ?H; auto. Qed.

Section Inv.
Variables (readable parses : file -> bool) (io cpu : nat) (files : list file).
Definition final (f : file) : fields := if readable f && parses f then HasSyntax else HasError.
Definition picks (p : file -> bool) : Prop := forall f, readable f = true -> p f = parses f.
Record inv (s : lstate) (fin : list file) : Prop := {
  i_files : Permutation files (unsent (main s) ++ inflight s ++ fin);
  i_wg : wg s = length (inflight s);
  i_mem : forall f, mem s f = Unset \/ mem s f = final f;
  i_fin : forall f, In f fin -> readable f = true -> mem s f = final f;
  i_set : forall f, In (PSet f) (parsers s) -> mem s f = final f;
  i_err : forall f, In (RErr f) (readers s) -> readable f = false;
  i_ok : forall f, In (RSend f) (readers s) \/ In f (parseq s) \/ In (PParse f) (parsers s) \/ In (PSet f) (parsers s) -> readable f = true;
  i_readers : length (readers s) = io;
  i_parsers : length (parsers s) = cpu;
  i_main : match main s with
           | Adding fs _ | Sending fs _ _ | Waiting fs => fs = files
           | Filtering todo kept => inflight s = [] /\ exists d p, files = d ++ todo /\ picks p /\ kept = filter p d
           | Returned kept => inflight s = [] /\ exists p, picks p /\ kept = filter p files
           end }.
Lemma inv_init : inv (linit files io cpu) [].
Proof.
  assert (R : rhands (repeat RIdle io) = []) by now apply flat_repeat. assert (P : phands (repeat PIdle cpu) = []) by now apply flat_repeat.
  constructor; unfold inflight; cbn [linit main wg readq readers parseq parsers mem unsent sending app]; rewrite ?R, ?P, ?repeat_length; cbn; rewrite ?app_nil_r; auto.
  - intros f [].
  - intros f I. apply repeat_spec in I. discriminate I.
  - intros f I. apply repeat_spec in I. discriminate I.
  - intros f [I|[[]|[I|I]]]; apply repeat_spec in I; discriminate I.
Qed.

Definition cnt (x : file) (l : list file) : nat := count_occ Nat.eq_dec l x.
Lemma cnt_app x a b : cnt x (a ++ b) = cnt x a + cnt x b.
Proof. unfold cnt. apply count_occ_app. Qed.
Lemma cnt_cons x y b : cnt x (y :: b) = cnt x [y] + cnt x b.
Proof. apply (cnt_app x [y] b). Qed.
Lemma cnt_nil x : cnt x [] = 0. Proof. reflexivity. Qed.
Lemma perm_cnt a b : Permutation a b <-> forall x, cnt x a = cnt x b.
Proof. apply (Permutation_count_occ Nat.eq_dec). Qed.
Lemma cnt_set {A} (h : A -> list file) l i old y x : nth_error l i = Some old ->
  cnt x (flat_map h (set_nth l i y)) + cnt x (h old) = cnt x (h y) + cnt x (flat_map h l).
Proof.
  intros E. assert (P := hands_split h l i old E). assert (Q := hands_set h l i y). rewrite perm_cnt in P, Q. specialize (P x). specialize (Q x). rewrite cnt_app in P, Q. lia.
Qed.
Lemma len_set {A} (h : A -> list file) l i old y : nth_error l i = Some old ->
  length (flat_map h (set_nth l i y)) + length (h old) = length (h y) + length (flat_map h l).
Proof.
  intros E. assert (P := Permutation_length (hands_split h l i old E)). assert (Q := Permutation_length (hands_set h l i y)). rewrite app_length in P, Q. lia.
Qed.
Lemma inflight_nil s : length (inflight s) = 0 -> inflight s = [].
Proof. destruct (inflight s); [auto|discriminate]. Qed.

Ltac solve_perm H :=
  apply perm_cnt; let x := fresh "x" in intros x; rewrite perm_cnt in H; specialize (H x); rewrite ?cnt_app, ?cnt_nil in *;
  repeat match goal with
  | N : nth_error ?l ?i = Some ?o |- context [set_nth ?l ?i ?y] =>
      match type of l with
      | list reader => let C := fresh in assert (C := cnt_set rhand l i o y x N); fold (rhands l) (rhands (set_nth l i y)) in C; cbn [rhand phand] in C; revert C; generalize (cnt x (rhands (set_nth l i y))); let z := fresh in intros z C
      | list parser => let C := fresh in assert (C := cnt_set phand l i o y x N); fold (phands l) (phands (set_nth l i y)) in C; cbn [rhand phand] in C; revert C; generalize (cnt x (phands (set_nth l i y))); let z := fresh in intros z C
      end
  end;
  rewrite ?cnt_app, ?cnt_nil in *;
  repeat match goal with
  | H0 : context [cnt ?x (?y :: ?b)] |- _ => lazymatch b with [] => fail | _ => rewrite (cnt_cons x y b) in H0 end
  | |- context [cnt ?x (?y :: ?b)] => lazymatch b with [] => fail | _ => rewrite (cnt_cons x y b) end
  end; rewrite ?cnt_nil in *; try lia.
Ltac solve_len :=
  rewrite ?app_length in *;
  repeat match goal with
  | N : nth_error ?l ?i = Some ?o |- context [set_nth ?l ?i ?y] =>
      match type of l with
      | list reader => let C := fresh in assert (C := len_set rhand l i o y N); fold (rhands l) (rhands (set_nth l i y)) in C; cbn [rhand phand length] in C; revert C; generalize (length (rhands (set_nth l i y))); let z := fresh in intros z C
      | list parser => let C := fresh in assert (C := len_set phand l i o y N); fold (phands l) (phands (set_nth l i y)) in C; cbn [rhand phand length] in C; revert C; generalize (length (phands (set_nth l i y))); let z := fresh in intros z C
      end
  end; rewrite ?app_length in *; cbn [length] in *; lia.

Hypothesis distinct : NoDup files.
Lemma inv_step s s' fin : inv s fin -> lstep readable parses io cpu s s' -> exists fin', inv s' fin'.
Proof.
  intros [F W M FN ST ER OK LR LP K] T.
  assert (NF : inflight s <> [] -> match main s with Filtering _ _ | Returned _ => False | _ => True end).
  { intros X. destruct (main s); auto; destruct K as (K & _); now apply X. }
  assert (ND : NoDup (unsent (main s) ++ inflight s ++ fin)) by (eapply Permutation_NoDup; eauto).
  inversion T; subst; unfold inflight in *; cbn [main wg readq readers parseq parsers mem unsent sending] in *.
  - exists fin. constructor; unfold inflight; cbn [main wg readq readers parseq parsers mem unsent sending]; auto; [solve_perm F|solve_len].
  - exists fin. constructor; unfold inflight; cbn [main wg readq readers parseq parsers mem unsent sending]; auto; [solve_perm F|solve_len].
  - exists fin. constructor; unfold inflight; cbn [main wg readq readers parseq parsers mem unsent sending]; auto.
  - exists fin. constructor; unfold inflight; cbn [main wg readq readers parseq parsers mem unsent sending]; auto.
    + solve_perm F.
    + solve_len.
    + intros g I. eapply set_nth_In in I as [I|I]; eauto. discriminate I.
    + intros g [I|I]; auto. eapply set_nth_In in I as [I|I]; eauto. discriminate I.
    + erewrite set_nth_length; eauto.
    + assert (N : sending k ++ (f :: rq) ++ rhands rs ++ pq ++ phands ps <> []) by (destruct (sending k); discriminate). specialize (NF N). destruct k; auto; destruct NF.
  - exists (f :: fin). assert (IN : In (RRead f) rs) by (eapply nth_error_In; eauto).
    constructor; unfold inflight; cbn [main wg readq readers parseq parsers mem unsent sending]; auto.
    + solve_perm F.
    + solve_len.
    + intros g [<-|I] R; [congruence|auto].
    + intros g I. eapply set_nth_In in I as [I|I]; eauto. injection I as ->. auto.
    + intros g [I|I]; auto. eapply set_nth_In in I as [I|I]; eauto. discriminate I.
    + erewrite set_nth_length; eauto.
    + assert (N : sending k ++ rq ++ rhands rs ++ pq ++ phands ps <> []).
      { intros X. rewrite X in W. discriminate W. }
      specialize (NF N). destruct k; auto; destruct NF.
  - exists fin. assert (IN : In (RErr f) rs) by (eapply nth_error_In; eauto). assert (RF : readable f = false) by auto.
    constructor; unfold inflight; cbn [main wg readq readers parseq parsers mem unsent sending]; auto.
    + solve_perm F.
    + solve_len.
    + intros g. unfold upd. destruct (Nat.eqb_spec g f) as [->|]; auto. right. unfold final. now rewrite RF.
    + intros g I R. unfold upd. destruct (Nat.eqb_spec g f) as [->|]; auto. congruence.
    + intros g I. unfold upd. destruct (Nat.eqb_spec g f) as [->|]; auto. unfold final. now rewrite RF.
    + intros g I. eapply set_nth_In in I as [I|I]; eauto. discriminate I.
    + intros g [I|I]; auto. eapply set_nth_In in I as [I|I]; eauto. discriminate I.
    + erewrite set_nth_length; eauto.
    + assert (Q := len_set rhand rs i _ RIdle H). fold (rhands rs) (rhands (set_nth rs i RIdle)) in Q. cbn [rhand length] in Q.
      destruct k; auto; destruct K as (K & K'); split; auto; apply length_zero_iff_nil; apply (f_equal (@length file)) in K; rewrite !app_length in *; cbn [length] in *; lia.
  - exists fin. assert (IN : In (RRead f) rs) by (eapply nth_error_In; eauto).
    constructor; unfold inflight; cbn [main wg readq readers parseq parsers mem unsent sending]; auto.
    + solve_perm F.
    + solve_len.
    + intros g I. eapply set_nth_In in I as [I|I]; eauto. discriminate I.
    + intros g [I|I]; auto. eapply set_nth_In in I as [I|I]; eauto. injection I as ->. auto.
    + erewrite set_nth_length; eauto.
    + assert (Q := len_set rhand rs i _ (RSend f) H). fold (rhands rs) (rhands (set_nth rs i (RSend f))) in Q. cbn [rhand length] in Q.
      destruct k; auto; destruct K as (K & K'); split; auto; apply length_zero_iff_nil; apply (f_equal (@length file)) in K; rewrite !app_length in *; cbn [length] in *; lia.
  - exists fin. assert (IN : In (RSend f) rs) by (eapply nth_error_In; eauto).
    constructor; unfold inflight; cbn [main wg readq readers parseq parsers mem unsent sending]; auto.
    + solve_perm F.
    + solve_len.
    + intros g I. eapply set_nth_In in I as [I|I]; eauto. discriminate I.
    + intros g [I|[I|I]]; auto; [eapply set_nth_In in I as [I|I]; eauto; discriminate I|]. apply in_app_or in I as [I|[<-|[]]]; auto.
    + erewrite set_nth_length; eauto.
    + assert (Q := len_set rhand rs i _ RIdle H). fold (rhands rs) (rhands (set_nth rs i RIdle)) in Q. cbn [rhand length] in Q.
      destruct k; auto; destruct K as (K & K'); split; auto; apply length_zero_iff_nil; apply (f_equal (@length file)) in K; rewrite !app_length in *; cbn [length] in *; lia.
  - exists fin. constructor; unfold inflight; cbn [main wg readq readers parseq parsers mem unsent sending]; auto.
    + solve_perm F.
    + solve_len.
    + intros g I. eapply set_nth_In in I as [I|I]; eauto. discriminate I.
    + intros g [I|[I|[I|I]]]; [auto|apply OK; right; left; now right| |]; (destruct (set_nth_In _ _ _ _ _ H I) as [X|X]; [|apply OK; tauto]); [|discriminate X]. injection X as ->. apply OK; right; left; now left.
    + erewrite set_nth_length; eauto.
    + assert (Q := len_set phand ps i _ (PParse f) H). fold (phands ps) (phands (set_nth ps i (PParse f))) in Q. cbn [phand length] in Q.
      destruct k; auto; destruct K as (K & K'); split; auto; apply length_zero_iff_nil; apply (f_equal (@length file)) in K; rewrite !app_length in *; cbn [length] in *; lia.
  - exists fin. assert (IN : In (PParse f) ps) by (eapply nth_error_In; eauto). assert (RF : readable f = true) by auto 6.
    assert (FE : (if parses f then HasSyntax else HasError) = final f) by (unfold final; now rewrite RF).
    constructor; unfold inflight; cbn [main wg readq readers parseq parsers mem unsent sending]; auto.
    + solve_perm F.
    + solve_len.
    + intros g. unfold upd. destruct (Nat.eqb_spec g f) as [->|]; auto.
    + intros g I R. unfold upd. destruct (Nat.eqb_spec g f) as [->|]; auto.
    + intros g I. unfold upd. destruct (Nat.eqb_spec g f) as [->|]; auto. eapply set_nth_In in I as [I|I]; eauto. now injection I as ->.
    + intros g [I|[I|[I|I]]]; [auto|auto| |]; (destruct (set_nth_In _ _ _ _ _ H I) as [X|X]; [|apply OK; tauto]); [discriminate X|]. now injection X as ->.
    + erewrite set_nth_length; eauto.
    + assert (Q := len_set phand ps i _ (PSet f) H). fold (phands ps) (phands (set_nth ps i (PSet f))) in Q. cbn [phand length] in Q.
      destruct k; auto; destruct K as (K & K'); split; auto; apply length_zero_iff_nil; apply (f_equal (@length file)) in K; rewrite !app_length in *; cbn [length] in *; lia.
  - exists (f :: fin). assert (IN : In (PSet f) ps) by (eapply nth_error_In; eauto).
    constructor; unfold inflight; cbn [main wg readq readers parseq parsers mem unsent sending]; auto.
    + solve_perm F.
    + solve_len.
    + intros g [<-|I] R; auto.
    + intros g I. eapply set_nth_In in I as [I|I]; eauto. discriminate I.
    + intros g [I|[I|[I|I]]]; [auto|auto| |]; (destruct (set_nth_In _ _ _ _ _ H I) as [X|X]; [discriminate X|apply OK; tauto]).
    + erewrite set_nth_length; eauto.
    + assert (N : sending k ++ rq ++ rhands rs ++ pq ++ phands ps <> []).
      { intros X. rewrite X in W. discriminate W. }
      specialize (NF N). destruct k; auto; destruct NF.
  - exists fin. constructor; unfold inflight; cbn [main wg readq readers parseq parsers mem unsent sending]; auto.
    split; [apply length_zero_iff_nil; auto|]. exists [], parses. repeat split; auto.
  - exists fin. constructor; unfold inflight; cbn [main wg readq readers parseq parsers mem unsent sending]; auto.
    destruct K as (K & d & p & FD & P & ->). split; auto.
    pose (q := fun g : file => if Nat.eqb g f then match m f with HasError => false | _ => true end else p g). exists (d ++ [f]), q.
    assert (NI : ~ In f d).
    { intros X. rewrite FD in distinct. apply NoDup_remove_2 in distinct. apply distinct. apply in_or_app. auto. }
    assert (FF : filter q d = filter p d).
    { apply filter_ext_in. intros g I. unfold q. destruct (Nat.eqb_spec g f) as [->|]; [contradiction|reflexivity]. }
    split; [now rewrite <- app_assoc|split].
    + intros g R. unfold q. destruct (Nat.eqb_spec g f) as [->|]; auto.
      assert (IF : In f fin).
      { assert (X : In f files) by (rewrite FD; apply in_or_app; right; now left). apply (Permutation_in f F) in X. cbn [app] in X, K. now rewrite K in X. }
      rewrite (FN f IF R). unfold final. rewrite R. cbn. now destruct (parses f).
    + rewrite filter_app, FF. cbn [filter]. unfold q. rewrite Nat.eqb_refl. destruct (m f); rewrite ?app_nil_r; reflexivity.
  - exists fin. constructor; unfold inflight; cbn [main wg readq readers parseq parsers mem unsent sending]; auto.
    destruct K as (K & d & p & FD & P & ->). split; auto. exists p. rewrite FD, app_nil_r. auto.
Qed.
End Inv.

Lemma seen_inv readable parses io cpu files s : NoDup files -> seen readable parses io cpu files s -> exists fin, inv readable parses io cpu files s fin.
Proof. intros D. induction 1 as [|s s' _ (fin & I) T]; [exists []; apply inv_init|]. eapply inv_step; eauto. Qed.
Lemma parser_cases (l : list parser) : (exists i f, nth_error l i = Some (PParse f)) \/ (exists i f, nth_error l i = Some (PSet f)) \/ Forall (fun x => x = PIdle) l.
Proof.
  induction l as [|x l IH]; [auto|]. destruct x as [|f|f]; [|left; exists 0, f; auto|right; left; exists 0, f; auto].
  destruct IH as [(i & f & E)|[(i & f & E)|A]]; [left; exists (S i), f; auto|right; left; exists (S i), f; auto|auto].
Qed.
Lemma reader_cases (l : list reader) : (exists i x, nth_error l i = Some x /\ x <> RIdle) \/ Forall (fun x => x = RIdle) l.
Proof.
  induction l as [|x l IH]; [auto|]. destruct x as [|f|f|f]; [|left; exists 0; eexists; split; [reflexivity|discriminate]..].
  destruct IH as [(i & x & E & N)|A]; [left; exists (S i), x; auto|auto].
Qed.
Lemma phands_in l i x f : nth_error l i = Some x -> phand x = [f] -> 0 < length (phands l).
Proof. intros E P. assert (Q := Permutation_length (hands_split phand l i x E)). unfold phands. rewrite Q, P. cbn. lia. Qed.
Lemma rhands_in l i x f : nth_error l i = Some x -> rhand x = [f] -> 0 < length (rhands l).
Proof. intros E P. assert (Q := Permutation_length (hands_split rhand l i x E)). unfold rhands. rewrite Q, P. cbn. lia. Qed.
Lemma idle_first {A} (l : list A) x : Forall (fun y => y = x) l -> 0 < length l -> nth_error l 0 = Some x.
Proof. intros F. destruct F as [|y l -> F]; cbn; [lia|auto]. Qed.

(** ** Theorems *)
(** Whatever the interleaving, loading is never stuck, and the wait group never goes below zero (a Done
    with the counter at 0 would have no step). *)
Theorem C78_no_deadlock :
  forall readable parses io cpu files s,
    0 < io -> 0 < cpu -> NoDup files -> seen readable parses io cpu files s ->
    (exists kept, returned s kept) \/ exists s', lstep readable parses io cpu s s'.
Proof.
  intros readable parses io cpu files s PI PC D H. destruct (seen_inv _ _ _ _ _ _ D H) as (fin & [F W M FN ST ER OK LR LP K]).
  destruct s as [k n rq rs pq ps m]. unfold inflight in *. cbn [main wg readq readers parseq parsers mem] in *. rewrite !app_length in W.
  destruct (parser_cases ps) as [(i & f & E)|[(i & f & E)|A]].
  - right. eexists. eapply ls_set; eauto.
  - right. assert (Z := phands_in ps i _ f E eq_refl). destruct n as [|n]; [lia|]. eexists. eapply ls_done; eauto.
  - destruct pq as [|f pq]; [|right; eexists; eapply ls_parse; apply (idle_first ps PIdle A); lia].
    destruct (reader_cases rs) as [(i & x & E & N)|B].
    + right. destruct x as [|f|f|f]; [congruence| | |].
      * destruct (readable f) eqn:R; [eexists; eapply ls_read; eauto|]. assert (Z := rhands_in rs i _ f E eq_refl). destruct n as [|n]; [lia|]. eexists. eapply ls_unreadable; eauto.
      * eexists. eapply ls_error; eauto.
      * eexists. eapply ls_pass; eauto.
    + destruct rq as [|f rq]; [|right; eexists; eapply ls_take; apply (idle_first rs RIdle B); lia].
      assert (RZ : rhands rs = []) by (clear -B; induction B as [|x l -> B IH]; auto).
      assert (PZ : phands ps = []) by (clear -A; induction A as [|x l -> A IH]; auto). rewrite RZ, PZ in W. cbn [length] in W.
      destruct k as [fs [|f t]|fs f t|fs|[|f t] kept|kept]; [right; eexists; apply ls_added|right; eexists; apply ls_add|right; eexists; apply ls_send; auto| | | |left; exists kept; reflexivity].
      * right. cbn in W. subst n. eexists. apply ls_wait.
      * right. eexists. apply ls_return.
      * right. eexists. apply ls_keep.
Qed.
Print Assumptions C78_no_deadlock.

Definition rw (x : reader) : nat := match x with RIdle => 0 | RRead _ => 5 | RErr _ => 1 | RSend _ => 4 end.
Definition pw (x : parser) : nat := match x with PIdle => 0 | PParse _ => 2 | PSet _ => 1 end.
Definition sum {A} (w : A -> nat) (l : list A) : nat := list_sum (map w l).
Lemma sum_set {A} (w : A -> nat) l i old y : nth_error l i = Some old -> sum w (set_nth l i y) + w old = w y + sum w l.
Proof.
  intros E. unfold sum. rewrite (nth_split_at l i old E) at 2. unfold set_nth. rewrite !map_app, !list_sum_app. cbn. lia.
Qed.
Definition mw (k : main_) : nat :=
  match k with Adding fs t => 9 * length t + length fs + 4 | Sending fs _ t => 9 * length t + 8 + length fs + 4 | Waiting fs => length fs + 3 | Filtering t _ => 1 + length t | Returned _ => 0 end.
Definition weight (s : lstate) : nat := mw (main s) + 6 * length (readq s) + sum rw (readers s) + 3 * length (parseq s) + sum pw (parsers s).
Lemma weight_step readable parses io cpu s s' : lstep readable parses io cpu s s' -> weight s' < weight s.
Proof.
  intros T. inversion T; subst; unfold weight; cbn [main wg readq readers parseq parsers mem mw length]; rewrite ?app_length; cbn [length]; try lia;
    match goal with
    | N : nth_error ?l ?i = Some ?o |- context [set_nth ?l ?i ?y] =>
        match type of l with
        | list reader => assert (Q := sum_set rw l i o y N); cbn [rw] in Q
        | list parser => assert (Q := sum_set pw l i o y N); cbn [pw] in Q
        end
    end; lia.
Qed.
(** Nor does it run for ever. *)
Theorem C78_terminates :
  forall readable parses io cpu (run : nat -> lstate), ~ (forall i, lstep readable parses io cpu (run i) (run (S i))).
Proof.
  intros readable parses io cpu run H. assert (A : forall i, weight (run i) + i <= weight (run 0)).
  { induction i as [|i IH]; [lia|]. assert (X := weight_step _ _ _ _ _ _ (H i)). lia. }
  specialize (A (S (weight (run 0)))). lia.
Qed.
Print Assumptions C78_terminates.

(** When every file can be read, whatever the interleaving, the files returned are those that parse, each
    with its syntax, in order. *)
Theorem C78_loaded_partial :
  forall readable parses io cpu files s kept,
    NoDup files -> (forall f, In f files -> readable f = true) -> seen readable parses io cpu files s -> returned s kept ->
    kept = filter parses files /\ forall f, In f kept -> mem s f = HasSyntax.
Proof.
  intros readable parses io cpu files s kept D R H E. destruct (seen_inv _ _ _ _ _ _ D H) as (fin & [F W M FN ST ER OK LR LP K]).
  unfold returned in E. rewrite E in K, F. destruct K as (K & p & P & ->). rewrite K in F. cbn [unsent app] in F.
  assert (Q : filter p files = filter parses files) by (apply filter_ext_in; intros f I; apply P; auto).
  split; auto. intros f I. rewrite Q in I. apply filter_In in I as (I & X). rewrite (FN f); auto; [unfold final; now rewrite (R f I), X|]. eapply Permutation_in; eauto.
Qed.
Print Assumptions C78_loaded_partial.
(** In general: no file that can be read and parsed is missing, in no case is one that can be read and does
    not parse kept; the order is that of the packages. *)
Theorem C78_kept_partial :
  forall readable parses io cpu files s kept,
    NoDup files -> seen readable parses io cpu files s -> returned s kept ->
    exists p, kept = filter p files /\ (forall f, In f files -> readable f = true -> p f = parses f) /\
              (forall f, In f kept -> readable f = true -> mem s f = HasSyntax).
Proof.
  intros readable parses io cpu files s kept D H E. destruct (seen_inv _ _ _ _ _ _ D H) as (fin & [F W M FN ST ER OK LR LP K]).
  unfold returned in E. rewrite E in K, F. destruct K as (K & p & P & ->). rewrite K in F. cbn [unsent app] in F.
  exists p. split; [auto|split; [auto|]]. intros f I R. apply filter_In in I as (I & X). rewrite (FN f); auto; [unfold final; now rewrite R, <- (P f R), X|]. eapply Permutation_in; eauto.
Qed.
Print Assumptions C78_kept_partial.

Lemma run1 readable parses io cpu files s s' : seen readable parses io cpu files s -> lstep readable parses io cpu s s' -> seen readable parses io cpu files s'.
Proof. apply seen_step. Qed.
Ltac fw t := match goal with H : seen _ _ _ _ _ _ |- _ => eapply run1 in H; [|t]; cbn [app set_nth firstn skipn upd] in H end.
(** Refuted: a file that cannot be read (or is larger than MaxFileSize) may be returned as if it had been
    read: the reader that fails to read it counts it as done before it sets its error.  It has no syntax
    then, which the code that walks the packages dereferences.  Both outcomes are possible for the same files. *)
Theorem C78_unreadable_refuted :
  exists readable parses io cpu files s s',
    0 < io /\ 0 < cpu /\ NoDup files /\
    seen readable parses io cpu files s /\ returned s [0] /\ readable 0 = false /\ mem s 0 = Unset /\
    seen readable parses io cpu files s' /\ returned s' [].
Proof.
  exists (fun _ => false), (fun _ => true), 1, 1, [0].
  assert (H := seen_init (fun _ => false) (fun _ => true) 1 1 [0]). unfold linit in H. cbn [repeat] in H.
  fw ltac:(apply ls_add). fw ltac:(apply ls_send; cbn; lia). fw ltac:(apply ls_added). fw ltac:(eapply (ls_take _ _ _ _ 0); reflexivity).
  fw ltac:(eapply (ls_unreadable _ _ _ _ 0); reflexivity). fw ltac:(apply ls_wait). assert (G := H).
  fw ltac:(apply ls_keep). fw ltac:(apply ls_return).
  eapply run1 in H; [|eapply (ls_error _ _ _ _ 0); reflexivity]. cbn [app set_nth firstn skipn] in H.
  eapply run1 in H; [|apply ls_keep]. eapply run1 in H; [|apply ls_return].
  eexists. eexists. split; [lia|]. split; [lia|]. split; [constructor; [intros []|constructor]|].
  split; [exact G|]. split; [reflexivity|]. split; [reflexivity|]. split; [reflexivity|]. split; [exact H|reflexivity].
Qed.
Print Assumptions C78_unreadable_refuted.
(** A case that meets the hypotheses: two files, the second of which does not parse; a run exists that returns. *)
Example C78_case : exists s, seen (fun _ => true) (fun f => Nat.eqb f 0) 1 1 [0; 1] s /\ returned s [0].
Proof.
  assert (H := seen_init (fun _ => true) (fun f => Nat.eqb f 0) 1 1 [0; 1]). unfold linit in H. cbn [repeat] in H.
  fw ltac:(apply ls_add). fw ltac:(apply ls_send; cbn; lia). fw ltac:(eapply (ls_take _ _ _ _ 0); reflexivity). fw ltac:(apply ls_add). fw ltac:(apply ls_send; cbn; lia).
  fw ltac:(apply ls_added). fw ltac:(eapply (ls_read _ _ _ _ 0); reflexivity). fw ltac:(eapply (ls_pass _ _ _ _ 0); [reflexivity|cbn; lia]).
  fw ltac:(eapply (ls_take _ _ _ _ 0); reflexivity). fw ltac:(eapply (ls_read _ _ _ _ 0); reflexivity). fw ltac:(eapply (ls_parse _ _ _ _ 0); reflexivity).
  fw ltac:(eapply (ls_pass _ _ _ _ 0); [reflexivity|cbn; lia]). fw ltac:(eapply (ls_set _ _ _ _ 0); reflexivity). fw ltac:(eapply (ls_done _ _ _ _ 0); reflexivity).
  fw ltac:(eapply (ls_parse _ _ _ _ 0); reflexivity). fw ltac:(eapply (ls_set _ _ _ _ 0); reflexivity). fw ltac:(eapply (ls_done _ _ _ _ 0); reflexivity).
  fw ltac:(apply ls_wait). fw ltac:(apply ls_keep). fw ltac:(apply ls_keep). fw ltac:(apply ls_return). eexists. split; [exact H|reflexivity].
Qed.
