(** * C30, C44: merging of coverage profiles.  Model: M_Coverage. *)
From Coq Require Import Ascii String List Arith ZArith Bool Lia Permutation.
From Verif Require Import M_Str M_Version M_Coverage.
Import ListNotations.
Open Scope nat_scope.

(** ** Specification *)
(** The different elements, in the order of first occurrence. *)
Fixpoint firsts (l : list bytes) : list bytes :=
  match l with [] => [] | x :: r => x :: filter (fun y => negb (eqs x y)) (firsts r) end.
(** The sum of the counts of a block. *)
Definition total (ls : list line) (p : bytes) : Z :=
  fold_right Z.add 0%Z (map snd (filter (fun l => eqs (fst l) p) ls)).
(** Each block once, with the sum of its counts (as int64). *)
Definition merged (ls : list line) : list line := map (fun p => (p, wrap64 (total ls p))) (firsts (map fst ls)).
Definition int64 (z : Z) : Prop := (- 2 ^ 63 <= z < 2 ^ 63)%Z.

(** ** Lists *)
Lemma set_length {A} (l : list A) i x : length (set_nth l i x) = length l.
Proof. revert i. induction l; intros [|i]; simpl; auto. Qed.
Lemma nth_set_same {A} (l : list A) i x d : i < length l -> nth i (set_nth l i x) d = x.
Proof. revert i. induction l; intros [|i] H; simpl in *; try lia; auto. apply IHl. lia. Qed.
Lemma nth_set_other {A} (l : list A) i j x d : i <> j -> nth j (set_nth l i x) d = nth j l d.
Proof. revert i j. induction l; intros [|i] [|j] H; simpl in *; auto; try lia. Qed.
Lemma firstn_set {A} (l : list A) i x : i < length l -> firstn (S i) (set_nth l i x) = firstn i l ++ [x].
Proof. revert i. induction l; intros [|i] H; simpl in *; try lia; auto. f_equal. apply IHl. lia. Qed.
Lemma firstn_set_le {A} (l : list A) i j x : j <= i -> firstn j (set_nth l i x) = firstn j l.
Proof. revert i j. induction l; intros [|i] [|j] H; simpl in *; auto; try lia. f_equal. apply IHl. lia. Qed.
Lemma skipn_set {A} (l : list A) i j x : i < j -> skipn j (set_nth l i x) = skipn j l.
Proof. revert i j. induction l; intros [|i] [|j] H; simpl in *; auto; try lia. apply IHl. lia. Qed.
Lemma skipn_nth {A} (l : list A) j d : j < length l -> skipn j l = nth j l d :: skipn (S j) l.
Proof. revert j. induction l; intros [|j] H; simpl in *; try lia; auto. apply IHl. lia. Qed.

(** ** The pure fold *)
Fixpoint add_line (acc : list line) (l : line) : list line :=
  match acc with
  | [] => [l]
  | (q, d) :: r => if eqs q (fst l) then (q, wrap64 (d + snd l)) :: r else (q, d) :: add_line r l
  end.
Definition add_lines (acc ls : list line) : list line := fold_left add_line ls acc.

(** [D]: the pointers of the result so far, [acc]: the lines they point to. *)
Record rep (m : mem) (D : list nat) (acc : list line) (pm : pmap) : Prop := {
  r_acc : map (load m) D = acc;
  r_nodup : NoDup D;
  r_bound : forall a, In a D -> a < length (m_heap m);
  r_pm : forall p a, find_prefix pm p = Some a <-> In a D /\ fst (load m a) = p
}.
Definition same_except (D : list nat) (m m' : mem) : Prop := forall b, ~ In b D -> load m' b = load m b.

Lemma load_add_same m prev a : prev < length (m_heap m) ->
  load (add_count m prev a) prev = (fst (load m prev), wrap64 (snd (load m prev) + snd (load m a))).
Proof.
  intros H. unfold add_count. destruct (load m prev) as [p c] eqn:E. cbn [fst snd].
  transitivity (nth prev (set_nth (m_heap m) prev (p, wrap64 (c + snd (load m a)))) null_line); [reflexivity|]. now apply nth_set_same.
Qed.
Lemma load_add_other m prev a b : b <> prev -> load (add_count m prev a) b = load m b.
Proof.
  intros H. unfold add_count. destruct (load m prev) as [p c] eqn:E.
  transitivity (nth b (set_nth (m_heap m) prev (p, wrap64 (c + snd (load m a)))) null_line); [reflexivity|]. rewrite nth_set_other by auto. reflexivity.
Qed.
Lemma arrs_add m prev a : m_arrs (add_count m prev a) = m_arrs m.
Proof. unfold add_count. now destruct (load m prev). Qed.
Lemma heap_add m prev a : length (m_heap (add_count m prev a)) = length (m_heap m).
Proof. unfold add_count. destruct (load m prev). simpl. apply set_length. Qed.

Lemma rep_add m D acc pm a prev : rep m D acc pm -> ~ In a D -> find_prefix pm (fst (load m a)) = Some prev ->
  rep (add_count m prev a) D (add_line acc (load m a)) pm /\ In prev D.
Proof.
  intros [A N B P] Na F. apply P in F as [Ip Ep]. split; auto. constructor; auto.
  - subst acc. pose proof (B prev Ip) as Bp.
    assert (U : forall b, In b D -> fst (load m b) = fst (load m a) -> b = prev).
    { intros b I E. assert (X : find_prefix pm (fst (load m a)) = Some b) by (apply P; auto).
      assert (Y : find_prefix pm (fst (load m a)) = Some prev) by (apply P; auto). congruence. }
    revert N Ip. clear P B Na. induction D as [|b D IH]; simpl; [tauto|]. intros N I. inversion N; subst.
    destruct (Nat.eq_dec b prev) as [->|Nb].
    + rewrite load_add_same by auto. destruct (load m prev) as [q d] eqn:E. simpl in Ep. subst q. simpl. rewrite eqs_refl. f_equal.
      apply map_ext_in. intros b I'. apply load_add_other. intros ->. contradiction.
    + rewrite load_add_other by auto. destruct (load m b) as [q d] eqn:E. destruct (eqs q (fst (load m a))) eqn:Q.
      * exfalso. apply eqs_eq in Q. apply Nb. apply U; [now left|]. rewrite <- Q. change q with (fst (q, d)). now rewrite <- E.
      * f_equal. destruct I as [->|I]; [congruence|]. apply IH; auto. intros c Ic. apply U. now right.
  - intros c I. rewrite heap_add. auto.
  - intros p c. rewrite P. split; intros [I E]; split; auto.
    + destruct (Nat.eq_dec c prev) as [->|Nc]; [rewrite load_add_same by auto; exact E|now rewrite load_add_other].
    + destruct (Nat.eq_dec c prev) as [->|Nc]; [rewrite load_add_same in E by auto; exact E|now rewrite load_add_other in E].
Qed.
Lemma add_line_new acc l : ~ In (fst l) (map fst acc) -> add_line acc l = acc ++ [l].
Proof.
  induction acc as [|[q d] acc IH]; simpl; auto. intros N. destruct (eqs q (fst l)) eqn:E; [apply eqs_eq in E; tauto|]. f_equal. apply IH. tauto.
Qed.
Lemma rep_new m m' D acc pm a : rep m D acc pm -> ~ In a D -> a < length (m_heap m) -> find_prefix pm (fst (load m a)) = None ->
  m_heap m' = m_heap m ->
  rep m' (D ++ [a]) (add_line acc (load m a)) ((fst (load m a), a) :: pm).
Proof.
  intros [A N B P] Na La F Hh.
  assert (L : forall b, load m' b = load m b) by (intros b; unfold load; now rewrite Hh).
  assert (U : forall b, In b D -> fst (load m b) <> fst (load m a)).
  { intros b I E. assert (X : find_prefix pm (fst (load m a)) = Some b) by (apply P; auto). congruence. }
  constructor.
  - rewrite map_app. rewrite (map_ext _ _ L). simpl. rewrite L, A. rewrite add_line_new; auto.
    subst acc. rewrite map_map. intros I. apply in_map_iff in I as (b & E & I). now apply (U b I).
  - apply (Permutation_NoDup (l := a :: D)); [apply Permutation_cons_append|]. now constructor.
  - rewrite Hh. intros b I. apply in_app_or in I as [I|[<-|[]]]; auto.
  - intros p b. simpl. rewrite L. destruct (eqs (fst (load m a)) p) eqn:E.
    + apply eqs_eq in E. subst p. split.
      * intros H. injection H as <-. split; auto. apply in_or_app. simpl. auto.
      * intros [I Eb]. apply in_app_or in I as [I|[<-|[]]]; auto. exfalso. now apply (U b I).
    + rewrite P. split; intros [I Eb].
      * split; auto. apply in_or_app; auto.
      * apply in_app_or in I as [I|[<-|[]]]; auto. rewrite Eb, eqs_refl in E. discriminate.
Qed.

Lemma arr_store_same m id i a : id < length (m_arrs m) -> arr (store m id i a) id = set_nth (arr m id) i a.
Proof. intros H. unfold arr at 1, store. simpl. now rewrite nth_set_same. Qed.
Lemma arr_store_other m id id' i a : id <> id' -> arr (store m id i a) id' = arr m id'.
Proof. intros H. unfold arr at 1, store. simpl. now rewrite nth_set_other. Qed.
Lemma arr_add m prev a id : arr (add_count m prev a) id = arr m id.
Proof. unfold arr. now rewrite arrs_add. Qed.

Definition vals (m : mem) (l : list nat) : list line := map (load m) l.

Lemma compact_spec id k : forall j i pm m D acc rest,
  id < length (m_arrs m) ->
  firstn i (arr m id) = D -> length D = i -> i <= j -> skipn j (arr m id) = rest -> length rest = k ->
  NoDup (D ++ rest) -> (forall a, In a rest -> a < length (m_heap m)) -> rep m D acc pm ->
  let '(i', pm', m') := compact_loop k j i id pm m in
  rep m' (firstn i' (arr m' id)) (add_lines acc (vals m rest)) pm' /\
  length (firstn i' (arr m' id)) = i' /\
  incl (firstn i' (arr m' id)) (D ++ rest) /\
  same_except (D ++ rest) m m' /\
  length (m_heap m') = length (m_heap m) /\ length (m_arrs m') = length (m_arrs m) /\ length (arr m' id) = length (arr m id) /\
  (forall id', id' <> id -> arr m' id' = arr m id').
Proof.
  induction k as [|k IH]; intros j i pm m D acc rest Hid HD Li Hij Hr Lr Nd Bd R; cbn [compact_loop].
  - destruct rest; [|discriminate]. rewrite HD. rewrite app_nil_r in *. simpl. unfold same_except.
    split; auto. split; auto. split; auto using incl_refl.
  - assert (Lj : j < length (arr m id)).
    { assert (X : length (skipn j (arr m id)) = S k) by now rewrite Hr. rewrite skipn_length in X. lia. }
    rewrite (skipn_nth (arr m id) j 0 Lj) in Hr. set (a := nth j (arr m id) 0) in *.
    destruct rest as [|a' rest]; [discriminate|]. injection Hr as <- Hr. simpl in Lr. injection Lr as Lr.
    assert (Na : ~ In a D). { intros I. apply (NoDup_remove_2 D rest a Nd). apply in_or_app; auto. }
    assert (Ba : a < length (m_heap m)) by (apply Bd; left; auto).
    destruct (find_prefix pm (fst (load m a))) as [prev|] eqn:F.
    + destruct (rep_add m D acc pm a prev R Na F) as [R' Ip].
      assert (Nd' : NoDup (D ++ rest)) by now apply NoDup_remove_1 in Nd.
      assert (Vr : vals (add_count m prev a) rest = vals m rest).
      { apply map_ext_in. intros b I. apply load_add_other. intros ->.
        assert (Nd2 : NoDup (D ++ rest)) by auto. clear -Nd2 Ip I.
        induction D; simpl in *; [tauto|]. inversion Nd2; subst. destruct Ip as [->|Ip]; auto. apply H1, in_or_app; auto. }
      specialize (IH (S j) i pm (add_count m prev a) D (add_line acc (load m a)) rest).
      rewrite !arr_add, arrs_add, heap_add in IH.
      specialize (IH Hid HD Li (le_S _ _ Hij) Hr Lr Nd' (fun b I => Bd b (or_intror I)) R').
      destruct (compact_loop k (S j) i id pm (add_count m prev a)) as [[i' pm'] m'].
      destruct IH as (I1 & I2 & I3 & I4 & I5 & I6 & I7 & I8). rewrite Vr in I1.
      split; [exact I1|]. split; auto. split.
      { intros b I. apply I3 in I. apply in_app_or in I as [I|I]; apply in_or_app; simpl; auto. }
      split.
      { intros b Nb. rewrite I4; [|intros I; apply Nb; apply in_app_or in I as [I|I]; apply in_or_app; simpl; auto].
        apply load_add_other. intros ->. apply Nb, in_or_app. auto. }
      repeat split; auto. intros id' N. rewrite I8 by auto. apply arr_add.
    + assert (Hi : i < length (arr m id)) by lia.
      set (m2 := store m id i a).
      assert (R' : rep m2 (D ++ [a]) (add_line acc (load m a)) ((fst (load m a), a) :: pm)) by (apply (rep_new m); auto).
      assert (Am : arr m2 id = set_nth (arr m id) i a) by now apply arr_store_same.
      specialize (IH (S j) (S i) ((fst (load m a), a) :: pm) m2 (D ++ [a]) (add_line acc (load m a)) rest).
      rewrite Am in IH. specialize (IH ltac:(unfold m2, store; simpl; now rewrite set_length)).
      specialize (IH ltac:(rewrite firstn_set by auto; now rewrite HD)).
      specialize (IH ltac:(rewrite app_length; simpl; lia) ltac:(lia)).
      specialize (IH ltac:(rewrite skipn_set by lia; exact Hr) Lr).
      specialize (IH ltac:(rewrite <- app_assoc; exact Nd) (fun b I => Bd b (or_intror I)) R').
      destruct (compact_loop k (S j) (S i) id ((fst (load m a), a) :: pm) m2) as [[i' pm'] m'].
      destruct IH as (I1 & I2 & I3 & I4 & I5 & I6 & I7 & I8).
      split; [exact I1|]. split; auto. split; [rewrite <- app_assoc in I3; exact I3|].
      split; [rewrite <- app_assoc in I4; exact I4|]. split; [exact I5|]. split; [rewrite I6; unfold m2, store; simpl; now rewrite set_length|].
      split; [rewrite I7; apply set_length|].
      intros id' N. rewrite I8 by auto. apply arr_store_other. auto.
Qed.

Lemma nodup_disjoint {A} (a b : list A) x : NoDup (a ++ b) -> In x a -> In x b -> False.
Proof. induction a; simpl; [tauto|]. intros N [->|I] J; inversion N; subst; [apply H1, in_or_app; auto|eauto]. Qed.

Lemma merge_loop_spec src k : forall j id n pm m D acc rest,
  src < length (m_arrs m) -> src <> id -> id < length (m_arrs m) ->
  firstn n (arr m id) = D -> length D = n -> skipn j (arr m src) = rest -> length rest = k ->
  NoDup (D ++ rest) -> (forall a, In a rest -> a < length (m_heap m)) -> rep m D acc pm ->
  let '(id', n', pm', m') := merge_loop k j src id n pm m in
  id' < length (m_arrs m') /\ (id' = id \/ length (m_arrs m) <= id') /\
  rep m' (firstn n' (arr m' id')) (add_lines acc (vals m rest)) pm' /\
  length (firstn n' (arr m' id')) = n' /\
  incl (firstn n' (arr m' id')) (D ++ rest) /\
  same_except (D ++ rest) m m' /\
  length (m_heap m') = length (m_heap m) /\ length (m_arrs m) <= length (m_arrs m') /\
  (forall x, x <> id -> x < length (m_arrs m) -> arr m' x = arr m x).
Proof.
  induction k as [|k IH]; intros j id n pm m D acc rest Hs Hne Hid HD Ln Hr Lr Nd Bd R; cbn [merge_loop].
  - destruct rest; [|discriminate]. rewrite HD. rewrite app_nil_r in *. simpl. unfold same_except.
    split; auto. split; auto. split; auto. split; auto. split; auto using incl_refl.
  - assert (Lj : j < length (arr m src)).
    { assert (X : length (skipn j (arr m src)) = S k) by now rewrite Hr. rewrite skipn_length in X. lia. }
    rewrite (skipn_nth (arr m src) j 0 Lj) in Hr. set (a := nth j (arr m src) 0) in *.
    destruct rest as [|a' rest]; [discriminate|]. injection Hr as <- Hr. simpl in Lr. injection Lr as Lr.
    assert (Na : ~ In a D). { intros I. apply (NoDup_remove_2 D rest a Nd). apply in_or_app; auto. }
    assert (Ba : a < length (m_heap m)) by (apply Bd; left; auto).
    destruct (find_prefix pm (fst (load m a))) as [prev|] eqn:F.
    + destruct (rep_add m D acc pm a prev R Na F) as [R' Ip].
      assert (Nd' : NoDup (D ++ rest)) by now apply NoDup_remove_1 in Nd.
      assert (Vr : vals (add_count m prev a) rest = vals m rest).
      { apply map_ext_in. intros b I. apply load_add_other. intros ->. exact (nodup_disjoint D rest prev Nd' Ip I). }
      specialize (IH (S j) id n pm (add_count m prev a) D (add_line acc (load m a)) rest).
      rewrite !arr_add, arrs_add, heap_add in IH.
      specialize (IH Hs Hne Hid HD Ln Hr Lr Nd' (fun b I => Bd b (or_intror I)) R').
      destruct (merge_loop k (S j) src id n pm (add_count m prev a)) as [[[id' n'] pm'] m'].
      destruct IH as (I0 & I0' & I1 & I2 & I3 & I4 & I5 & I6 & I7). rewrite Vr in I1.
      split; auto. split; auto. split; [exact I1|]. split; auto. split.
      { intros b I. apply I3 in I. apply in_app_or in I as [I|I]; apply in_or_app; simpl; auto. }
      split.
      { intros b Nb. rewrite I4; [|intros I; apply Nb; apply in_app_or in I as [I|I]; apply in_or_app; simpl; auto].
        apply load_add_other. intros ->. apply Nb, in_or_app. auto. }
      repeat split; auto. intros x N Lx. rewrite I7 by auto. apply arr_add.
    + destruct (append_slice m id n a) as [m2 id2] eqn:Ap.
      assert (Fa : m_heap m2 = m_heap m /\ firstn (S n) (arr m2 id2) = D ++ [a] /\ id2 < length (m_arrs m2) /\ length (m_arrs m) <= length (m_arrs m2) /\
                   (id2 = id \/ length (m_arrs m) <= id2) /\ (forall x, x <> id -> x < length (m_arrs m) -> arr m2 x = arr m x)).
      { unfold append_slice in Ap. destruct (n <? length (arr m id)) eqn:Q; injection Ap as <- <-.
        - apply Nat.ltb_lt in Q. split; auto. split; [|split; [|split; [|split]]]; auto.
          + rewrite arr_store_same by auto. rewrite firstn_set by auto. now rewrite HD.
          + unfold store. simpl. now rewrite set_length.
          + unfold store. simpl. rewrite set_length. lia.
          + intros x N _. apply arr_store_other. auto.
        - apply Nat.ltb_ge in Q. split; auto. split; [|split; [|split; [|split]]].
          + replace (arr (Mem (m_heap m) (m_arrs m ++ [firstn n (arr m id) ++ [a]])) (length (m_arrs m))) with (D ++ [a])
              by (unfold arr at 1; cbn [m_arrs]; rewrite app_nth2, Nat.sub_diag by lia; cbn [nth]; now rewrite HD).
            apply firstn_all2. rewrite app_length. simpl. lia.
          + simpl. rewrite app_length. simpl. lia.
          + simpl. rewrite app_length. simpl. lia.
          + lia.
          + intros x N Lx. unfold arr. simpl. now rewrite app_nth1. }
      destruct Fa as (F1 & F2 & F3 & F4 & F5 & F6).
      assert (R' : rep m2 (D ++ [a]) (add_line acc (load m a)) ((fst (load m a), a) :: pm)) by (apply (rep_new m); auto).
      assert (As : arr m2 src = arr m src) by now apply F6.
      specialize (IH (S j) id2 (S n) ((fst (load m a), a) :: pm) m2 (D ++ [a]) (add_line acc (load m a)) rest).
      rewrite As, F1 in IH.
      assert (Hne2 : src <> id2) by (destruct F5 as [->|F5]; auto; lia).
      specialize (IH ltac:(lia) Hne2 F3 F2 ltac:(rewrite app_length; simpl; lia) Hr Lr ltac:(rewrite <- app_assoc; exact Nd) (fun b I => Bd b (or_intror I)) R').
      assert (Vr : vals m2 rest = vals m rest) by (apply map_ext; intros b; unfold load; now rewrite F1).
      destruct (merge_loop k (S j) src id2 (S n) ((fst (load m a), a) :: pm) m2) as [[[id' n'] pm'] m'].
      destruct IH as (I0 & I0' & I1 & I2 & I3 & I4 & I5 & I6 & I7). rewrite Vr in I1.
      split; auto. split; [destruct I0' as [->|I0']; [destruct F5 as [->|F5]; auto|right; lia]|].
      split; [exact I1|]. split; auto. split; [rewrite <- app_assoc in I3; exact I3|].
      split. { intros b Nb. rewrite I4 by (rewrite <- app_assoc; exact Nb). unfold load. now rewrite F1. }
      split; auto. split; [lia|].
      intros x N Lx. rewrite I7; [now apply F6|destruct F5 as [->|F5]; auto; lia|lia].
Qed.

Lemma merge_rest_spec covs : forall id n pm m D acc,
  NoDup covs -> (forall s, In s covs -> s <> id /\ s < length (m_arrs m)) -> id < length (m_arrs m) ->
  firstn n (arr m id) = D -> length D = n ->
  NoDup (D ++ concat (map (arr m) covs)) -> (forall a, In a (concat (map (arr m) covs)) -> a < length (m_heap m)) -> rep m D acc pm ->
  lines_of (merge_rest covs id n pm m) = add_lines acc (concat (map (fun s => vals m (arr m s)) covs)).
Proof.
  induction covs as [|s covs IH]; intros id n pm m D acc Nc Hc Hid HD Ln Nd Bd R; cbn [merge_rest].
  - simpl. unfold lines_of. rewrite HD. apply R.
  - destruct (Hc s (or_introl eq_refl)) as [Hs Ls]. simpl in Nd, Bd.
    pose proof (merge_loop_spec s (length (arr m s)) 0 id n pm m D acc (arr m s) Ls Hs Hid HD Ln eq_refl eq_refl) as M.
    rewrite app_assoc in Nd.
    assert (Nd1 : NoDup (D ++ arr m s)).
    { clear -Nd. induction (D ++ arr m s) as [|x l IHl]; [constructor|]. simpl in Nd. inversion Nd; subst. constructor; auto. intros I. apply H1, in_or_app. auto. }
    assert (Nd2 : NoDup (concat (map (arr m) covs))).
    { clear -Nd. induction (D ++ arr m s) as [|x l IHl]; auto. simpl in Nd. inversion Nd; auto. }
    specialize (M Nd1 (fun a I => Bd a (in_or_app _ _ _ (or_introl I))) R).
    destruct (merge_loop (length (arr m s)) 0 s id n pm m) as [[[id' n'] pm'] m'].
    destruct M as (I0 & I0' & I1 & I2 & I3 & I4 & I5 & I6 & I7).
    inversion Nc as [|? ? Nin Nc']. subst x l.
    assert (Ha : forall s', In s' covs -> arr m' s' = arr m s').
    { intros s' I. destruct (Hc s' (or_intror I)). apply I7; auto. }
    assert (Hm : map (arr m') covs = map (arr m) covs) by now apply map_ext_in.
    assert (Hl : forall b, In b (concat (map (arr m) covs)) -> load m' b = load m b).
    { intros b I. apply I4. intros J. exact (nodup_disjoint _ _ b Nd J I). }
    rewrite (IH id' n' pm' m' (firstn n' (arr m' id')) (add_lines acc (vals m (arr m s)))); auto.
    + simpl. unfold add_lines. rewrite fold_left_app. f_equal. f_equal. apply map_ext_in. intros s' I.
      rewrite (Ha s' I). apply map_ext_in. intros b J. apply Hl. apply in_concat. exists (arr m s'). split; auto. now apply in_map.
    + intros s' I. destruct (Hc s' (or_intror I)) as [N L]. split; [destruct I0' as [->|I0']; auto; lia|lia].
    + rewrite Hm. assert (ND' : NoDup (firstn n' (arr m' id'))) by apply I1. clear -ND' Nd Nd2 I3.
      induction (firstn n' (arr m' id')) as [|x l IHl]; auto. simpl. inversion ND'; subst. constructor.
      * intros I. apply in_app_or in I as [I|I]; auto. apply (nodup_disjoint _ _ x Nd); auto. apply I3. now left.
      * apply IHl; auto. intros y I. apply I3. now right.
    + rewrite Hm, I5. intros a I. apply Bd, in_or_app. auto.
Qed.

(** Merge as a fold over all lines. *)
Lemma merge_fold covs m : NoDup covs -> (forall s, In s covs -> s < length (m_arrs m)) ->
  NoDup (concat (map (arr m) covs)) -> (forall a, In a (concat (map (arr m) covs)) -> a < length (m_heap m)) ->
  covs <> [] ->
  lines_of (merge covs m) = add_lines [] (concat (map (fun s => vals m (arr m s)) covs)).
Proof.
  destruct covs as [|s covs]; [congruence|]. intros Nc Hc Nd Bd _. unfold merge. inversion Nc as [|? ? Nin Nc']. subst x l.
  simpl in Nd, Bd.
  assert (Nd1 : NoDup ([] ++ arr m s)).
  { simpl. clear -Nd. induction (arr m s) as [|x l IHl]; [constructor|]. simpl in Nd. inversion Nd; subst. constructor; auto. intros I. apply H1, in_or_app. auto. }
  assert (Nd2 : NoDup (concat (map (arr m) covs))).
  { clear -Nd. induction (arr m s) as [|x l IHl]; auto. simpl in Nd. inversion Nd; auto. }
  assert (R0 : rep m [] [] []).
  { constructor; auto; [constructor|intros a []|]. intros p a. simpl. split; [discriminate|tauto]. }
  pose proof (compact_spec s (length (arr m s)) 0 0 [] m [] [] (arr m s) (Hc s (or_introl eq_refl)) eq_refl eq_refl (le_n 0) eq_refl eq_refl Nd1
    (fun a I => Bd a (in_or_app _ _ _ (or_introl I))) R0) as C.
  destruct (compact_loop (length (arr m s)) 0 0 s [] m) as [[i pm] m'].
  destruct C as (I1 & I2 & I3 & I4 & I5 & I6 & I7 & I8). simpl app in I3, I4.
  assert (Ha : forall s', In s' covs -> arr m' s' = arr m s').
  { intros s' I. apply I8. intros ->. contradiction. }
  assert (Hm : map (arr m') covs = map (arr m) covs) by now apply map_ext_in.
  assert (Hl : forall b, In b (concat (map (arr m) covs)) -> load m' b = load m b).
  { intros b I. apply I4. intros J. exact (nodup_disjoint _ _ b Nd J I). }
  rewrite (merge_rest_spec covs s i pm m' (firstn i (arr m' s)) (add_lines [] (vals m (arr m s)))); auto.
  - simpl. unfold add_lines. rewrite fold_left_app. f_equal. f_equal. apply map_ext_in. intros s' I.
    rewrite (Ha s' I). apply map_ext_in. intros b J. apply Hl. apply in_concat. exists (arr m s'). split; auto. now apply in_map.
  - intros s' I. split; [intros ->; contradiction|]. rewrite I6. apply Hc. now right.
  - rewrite I6. apply Hc. now left.
  - rewrite Hm. assert (ND' : NoDup (firstn i (arr m' s))) by apply I1. clear -ND' Nd Nd2 I3.
    induction (firstn i (arr m' s)) as [|x l IHl]; auto. simpl. inversion ND'; subst. constructor.
    + intros I. apply in_app_or in I as [I|I]; auto. apply (nodup_disjoint _ _ x Nd); auto. apply I3. now left.
    + apply IHl; auto. intros y I. apply I3. now right.
  - rewrite Hm, I5. intros a I. apply Bd, in_or_app. auto.
Qed.

(** ** The fold computes the specification *)
Lemma wrap_add a b : wrap64 (wrap64 a + b) = wrap64 (a + b).
Proof.
  unfold wrap64. f_equal. replace ((a + 2 ^ 63) mod 2 ^ 64 - 2 ^ 63 + b + 2 ^ 63)%Z with ((a + 2 ^ 63) mod 2 ^ 64 + b)%Z by lia.
  rewrite Zplus_mod_idemp_l. f_equal. lia.
Qed.
Lemma wrap_id z : int64 z -> wrap64 z = z.
Proof. unfold int64, wrap64. intros H. rewrite Z.mod_small; lia. Qed.
Lemma wrap_int64 z : int64 (wrap64 z).
Proof. unfold int64, wrap64. pose proof (Z.mod_pos_bound (z + 2 ^ 63) (2 ^ 64) ltac:(lia)). lia. Qed.
Lemma firsts_in l x : In x (firsts l) <-> In x l.
Proof.
  induction l as [|y l IH]; simpl; [tauto|]. rewrite filter_In, IH. split.
  - intros [->|[I _]]; auto.
  - intros [->|I]; auto. destruct (eqs y x) eqn:E; [apply eqs_eq in E; auto|]. auto.
Qed.
Lemma firsts_snoc l x : firsts (l ++ [x]) = if existsb (fun y => eqs y x) l then firsts l else firsts l ++ [x].
Proof.
  induction l as [|y l IH]; simpl; auto. rewrite IH. destruct (eqs y x) eqn:E; simpl.
  - destruct (existsb (fun y0 => eqs y0 x) l); auto. rewrite filter_app. simpl. rewrite E. simpl. now rewrite app_nil_r.
  - destruct (existsb (fun y0 => eqs y0 x) l); auto. rewrite filter_app. simpl. rewrite E. reflexivity.
Qed.
Lemma firsts_nodup l : NoDup (firsts l).
Proof.
  induction l as [|y l IH]; simpl; constructor.
  - rewrite filter_In. intros [_ H]. now rewrite eqs_refl in H.
  - now apply NoDup_filter.
Qed.
Lemma sum_app (a b : list Z) : fold_right Z.add 0%Z (a ++ b) = (fold_right Z.add 0 a + fold_right Z.add 0 b)%Z.
Proof. induction a as [|x a IH]; cbn [app fold_right]; [lia|]. rewrite IH. lia. Qed.
Lemma total_app a b p : total (a ++ b) p = (total a p + total b p)%Z.
Proof. unfold total. rewrite filter_app, map_app. apply sum_app. Qed.
Lemma total_one l p : total [l] p = if eqs (fst l) p then snd l else 0%Z.
Proof. unfold total. simpl. destruct (eqs (fst l) p); simpl; lia. Qed.
Lemma add_line_map f ps l : NoDup ps -> In (fst l) ps ->
  add_line (map (fun p => (p, f p)) ps) l = map (fun p => (p, if eqs p (fst l) then wrap64 (f p + snd l) else f p)) ps.
Proof.
  induction ps as [|q ps IH]; simpl; [tauto|]. intros N I. inversion N; subst. destruct (eqs q (fst l)) eqn:E.
  - f_equal. apply map_ext_in. intros p Ip. destruct (eqs p (fst l)) eqn:E'; auto. apply eqs_eq in E, E'. congruence.
  - f_equal. apply IH; auto. destruct I as [->|I]; auto. now rewrite eqs_refl in E.
Qed.
Lemma eqs_sym a b : eqs a b = eqs b a.
Proof.
  destruct (eqs a b) eqn:E; [apply eqs_eq in E; subst; symmetry; apply eqs_refl|].
  destruct (eqs b a) eqn:E'; auto. apply eqs_eq in E'. subst. now rewrite eqs_refl in E.
Qed.
Lemma total_absent ls p : ~ In p (map fst ls) -> total ls p = 0%Z.
Proof.
  intros N. unfold total. replace (filter (fun l => eqs (fst l) p) ls) with (@nil line); auto. symmetry.
  induction ls as [|l ls IH]; simpl in *; auto. destruct (eqs (fst l) p) eqn:E; [apply eqs_eq in E; tauto|]. apply IH. tauto.
Qed.
Lemma fold_merged ls : Forall (fun l => int64 (snd l)) ls -> add_lines [] ls = merged ls.
Proof.
  unfold add_lines. induction ls as [|l ls IH] using rev_ind; intros F; [reflexivity|].
  apply Forall_app in F as [F Fl]. inversion Fl as [|? ? Hl _]; subst. rewrite fold_left_app. cbn [fold_left].
  etransitivity; [exact (f_equal (fun a => add_line a l) (IH F))|]. unfold merged.
  rewrite map_app. simpl. rewrite firsts_snoc.
  destruct (existsb (fun y => eqs y (fst l)) (map fst ls)) eqn:X.
  - apply existsb_exists in X as (y & I & E). apply eqs_eq in E. subst y.
    rewrite add_line_map; [|apply firsts_nodup|now apply firsts_in]. apply map_ext_in. intros p Ip. f_equal.
    rewrite total_app, total_one, (eqs_sym (fst l) p). destruct (eqs p (fst l)); [now rewrite wrap_add|f_equal; lia].
  - assert (N : ~ In (fst l) (map fst ls)).
    { intros I. assert (existsb (fun y => eqs y (fst l)) (map fst ls) = true); [|congruence]. apply existsb_exists. exists (fst l). split; auto. apply eqs_refl. }
    rewrite add_line_new.
    + rewrite map_app. simpl. f_equal.
      * apply map_ext_in. intros p Ip. f_equal. f_equal. rewrite total_app, total_one. destruct (eqs (fst l) p) eqn:E; [|lia].
        apply eqs_eq in E. subst p. apply (proj1 (firsts_in _ _)) in Ip. exact (False_ind _ (N Ip)).
      * f_equal. rewrite total_app, total_one, eqs_refl, (total_absent _ _ N). rewrite Z.add_0_l, wrap_id by auto. now destruct l.
    + rewrite map_map. simpl. rewrite map_id. now rewrite firsts_in.
Qed.

(** For every list of profiles whose lines and slices are not shared: Merge returns each
    block once, in order of first occurrence, with the sum of its counts. *)
Theorem C30_merge_sums :
  forall covs m, NoDup covs -> (forall s, In s covs -> s < length (m_arrs m)) ->
  NoDup (concat (map (arr m) covs)) -> (forall a, In a (concat (map (arr m) covs)) -> a < length (m_heap m)) ->
  (forall a, In a (concat (map (arr m) covs)) -> int64 (snd (load m a))) ->
  lines_of (merge covs m) = merged (concat (map (fun s => map (load m) (arr m s)) covs)).
Proof.
  intros covs m Nc Hc Nd Bd H64. destruct covs as [|s covs]; [reflexivity|].
  rewrite merge_fold; auto; [|discriminate]. apply fold_merged.
  apply Forall_forall. intros l I. apply in_concat in I as (x & Ix & Il). apply in_map_iff in Ix as (s' & <- & Is).
  apply in_map_iff in Il as (a & <- & Ia). apply H64. apply in_concat. exists (arr m s'). split; auto. now apply in_map.
Qed.
Print Assumptions C30_merge_sums.

(** Sharing matters: a profile passed twice is counted wrongly, because the first pass
    compacts it in place (3 + 3 lines of counts 1, 0, 4 give 14 instead of 10). *)
Theorem C30_shared_refuted :
  exists covs m, (forall s, In s covs -> s < length (m_arrs m)) /\
  NoDup (arr m 0) /\ (forall a, In a (arr m 0) -> a < length (m_heap m) /\ int64 (snd (load m a))) /\
  lines_of (merge covs m) <> merged (concat (map (fun s => map (load m) (arr m s)) covs)).
Proof.
  exists [0; 0], (Mem [(#"a", 1%Z); (#"b", 0%Z); (#"a", 4%Z)] [[0; 1; 2]]).
  split; [intros s [<-|[<-|[]]]; simpl; lia|]. split; [repeat constructor; simpl; intuition discriminate|].
  split; [|vm_compute; discriminate].
  intros a [<-|[<-|[<-|[]]]]; (split; [simpl; lia|]); vm_compute; split; congruence.
Qed.
Print Assumptions C30_shared_refuted.

(** *** Grouping *)
Definition memb (l : list bytes) (x : bytes) : bool := existsb (fun y => eqs y x) l.
Lemma memb_in l x : memb l x = true <-> In x l.
Proof.
  unfold memb. rewrite existsb_exists. split; [intros (y & I & E); apply eqs_eq in E; now subst|]. intros I. exists x. split; auto. apply eqs_refl.
Qed.
Lemma firsts_app a b : firsts (a ++ b) = firsts a ++ filter (fun x => negb (memb a x)) (firsts b).
Proof.
  induction a as [|x a IH]; simpl.
  - induction (firsts b) as [|y l IHl]; simpl; auto. now f_equal.
  - f_equal. rewrite IH, filter_app. f_equal. clear. induction (firsts b) as [|y l IHl]; simpl; auto.
    destruct (memb a y) eqn:E; simpl; unfold memb in *; simpl; rewrite ?E; simpl.
    + now rewrite orb_true_r.
    + destruct (eqs x y); simpl; auto. now f_equal.
Qed.
Lemma filter_all {A} (f : A -> bool) l : (forall x, In x l -> f x = true) -> filter f l = l.
Proof. induction l as [|x l IH]; simpl; auto. intros H. rewrite H by auto. f_equal. auto. Qed.
Lemma firsts_id l : NoDup l -> firsts l = l.
Proof.
  induction 1 as [|x l N Nd IH]; simpl; auto. rewrite IH. f_equal. apply filter_all. intros y I.
  destruct (eqs x y) eqn:E; auto. apply eqs_eq in E. now subst.
Qed.
Lemma merged_keys ls : map fst (merged ls) = firsts (map fst ls).
Proof. unfold merged. rewrite map_map. simpl. apply map_id. Qed.
Lemma total_merged ls p : total (merged ls) p = wrap64 (total ls p).
Proof.
  destruct (in_dec (list_eq_dec ascii_dec) p (map fst ls)) as [I|N].
  - unfold merged. apply (proj2 (firsts_in _ _)) in I. pose proof (firsts_nodup (map fst ls)) as Nd. revert I Nd.
    generalize (firsts (map fst ls)) as ps. unfold total at 1. intros ps I Nd.
    replace (filter (fun l => eqs (fst l) p) (map (fun p0 => (p0, wrap64 (total ls p0))) ps)) with [(p, wrap64 (total ls p))]; [simpl; lia|].
    induction ps as [|q ps IH]; simpl in *; [tauto|]. inversion Nd; subst. destruct (eqs q p) eqn:E.
    + apply eqs_eq in E. subst q. f_equal. symmetry.
      assert (Z : forall l : list bytes, ~ In p l -> filter (fun l => eqs (fst l) p) (map (fun p0 => (p0, wrap64 (total ls p0))) l) = []).
      { clear. induction l as [|q l IH]; simpl; auto. intros N. destruct (eqs q p) eqn:E; [apply eqs_eq in E; tauto|]. apply IH. tauto. }
      now apply Z.
    + apply IH; auto. destruct I as [->|I]; auto. now rewrite eqs_refl in E.
  - rewrite total_absent; [rewrite total_absent by auto; reflexivity|]. rewrite merged_keys. intros I. apply (proj1 (firsts_in _ _)) in I. auto.
Qed.
Lemma merged_ext ls ls' : firsts (map fst ls) = firsts (map fst ls') -> (forall p, wrap64 (total ls p) = wrap64 (total ls' p)) -> merged ls = merged ls'.
Proof. intros E T. unfold merged. rewrite E. apply map_ext. intros p. now rewrite T. Qed.
Lemma memb_firsts a x : memb (firsts a) x = memb a x.
Proof.
  destruct (memb a x) eqn:E; [apply memb_in in E; apply memb_in; now apply firsts_in|].
  destruct (memb (firsts a) x) eqn:E'; auto. apply memb_in in E'. apply (proj1 (firsts_in _ _)) in E'. apply memb_in in E'. congruence.
Qed.
Lemma merged_left a b : merged (merged a ++ b) = merged (a ++ b).
Proof.
  apply merged_ext.
  - rewrite !map_app, merged_keys, !firsts_app, (firsts_id (firsts (map fst a))) by apply firsts_nodup. f_equal.
    apply filter_ext. intros x. now rewrite memb_firsts.
  - intros p. rewrite !total_app, total_merged. apply wrap_add.
Qed.
Lemma merged_right a b : merged (a ++ merged b) = merged (a ++ b).
Proof.
  apply merged_ext.
  - rewrite !map_app, merged_keys, !firsts_app, (firsts_id (firsts (map fst b))) by apply firsts_nodup. reflexivity.
  - intros p. rewrite !total_app, total_merged. rewrite Z.add_comm, wrap_add. f_equal. lia.
Qed.
Lemma merged_concat groups : merged (concat (map merged groups)) = merged (concat groups).
Proof.
  induction groups as [|g groups IH]; simpl; auto. rewrite merged_left, <- merged_right, IH, merged_right. reflexivity.
Qed.
Lemma filter_firsts f l : filter f (firsts l) = firsts (filter f l).
Proof.
  induction l as [|x l IH]; simpl; auto. destruct (f x) eqn:E; simpl.
  - f_equal. rewrite <- IH. clear. induction (firsts l) as [|y r IHr]; simpl; auto.
    destruct (eqs x y) eqn:Q, (f y) eqn:F; simpl; rewrite ?Q, ?F; simpl; rewrite ?IHr; auto.
  - rewrite <- IH. clear -E. induction (firsts l) as [|y r IHr]; simpl; auto.
    destruct (eqs x y) eqn:Q; simpl.
    + apply eqs_eq in Q. subst y. rewrite E. exact IHr.
    + destruct (f y); simpl; rewrite ?IHr; auto.
Qed.
Definition keep (f : bytes -> bool) (l : line) : bool := f (fst l).
Lemma merged_filter f ls : filter (keep f) (merged ls) = merged (filter (keep f) ls).
Proof.
  assert (K : map fst (filter (keep f) ls) = filter f (map fst ls)).
  { clear. induction ls as [|l ls IH]; simpl; auto. unfold keep at 1. destruct (f (fst l)); simpl; rewrite ?IH; auto. }
  unfold merged. rewrite K, <- filter_firsts.
  assert (T : forall p, f p = true -> total (filter (keep f) ls) p = total ls p).
  { intros p H. unfold total. f_equal. f_equal. clear -H. induction ls as [|l ls IH]; simpl; auto. unfold keep at 1.
    destruct (f (fst l)) eqn:F; simpl; destruct (eqs (fst l) p) eqn:E; rewrite ?IH; auto. apply eqs_eq in E. congruence. }
  induction (firsts (map fst ls)) as [|p ps IH]; simpl; auto. unfold keep at 1. simpl. destruct (f p) eqn:F; simpl; rewrite ?T by auto; now rewrite IH.
Qed.

(** ** Filter *)
Lemma filter_spec check id k : forall i j m D rest, id < length (m_arrs m) ->
  firstn j (arr m id) = D -> length D = j -> j <= i -> firstn k (skipn i (arr m id)) = rest -> length rest = k ->
  let '(j', m') := filter_loop check k i j id m in
  firstn j' (arr m' id) = D ++ filter (fun a => check (load m a)) rest /\ m_heap m' = m_heap m.
Proof.
  induction k as [|k IH]; intros i j m D rest Hid HD Lj Hij Hr Lr; cbn [filter_loop].
  - destruct rest; [|discriminate]. simpl. now rewrite app_nil_r.
  - assert (Li : i < length (arr m id)).
    { destruct (le_lt_dec (length (arr m id)) i) as [L|]; auto. exfalso. rewrite skipn_all2 in Hr by auto. destruct rest; discriminate. }
    rewrite (skipn_nth _ i 0 Li) in Hr. cbn [firstn] in Hr. destruct rest as [|a rest]; [discriminate|]. injection Hr as Ha Hr. rewrite Ha.
    cbn [length] in Lr. injection Lr as Lr. cbn [filter]. destruct (check (load m a)) eqn:C.
    + specialize (IH (S i) (S j) (store m id j a) (D ++ [a]) rest). rewrite arr_store_same in IH by auto.
      specialize (IH ltac:(unfold store; simpl; now rewrite set_length)).
      specialize (IH ltac:(rewrite firstn_set by lia; now rewrite HD) ltac:(rewrite app_length; simpl; lia) ltac:(lia)).
      specialize (IH ltac:(rewrite skipn_set by lia; exact Hr) Lr).
      destruct (filter_loop check k (S i) (S j) id (store m id j a)) as [j' m']. destruct IH as [IH Hh]. split; auto.
      rewrite IH, <- app_assoc. reflexivity.
    + specialize (IH (S i) j m D rest Hid HD Lj (le_S _ _ Hij) Hr Lr). exact IH.
Qed.
Lemma filter_slice_lines check id n m : id < length (m_arrs m) -> n <= length (arr m id) ->
  lines_of (filter_slice check (id, n, m)) = filter check (lines_of (id, n, m)).
Proof.
  intros Hid Ln. unfold filter_slice. pose proof (filter_spec check id n 0 0 m [] (firstn n (arr m id)) Hid eq_refl eq_refl (le_n 0) eq_refl) as F.
  specialize (F ltac:(rewrite firstn_length; lia)). destruct (filter_loop check n 0 0 id m) as [j m']. destruct F as [F Hh]. simpl app in F.
  unfold lines_of. rewrite F. clear -Hh.
  assert (L : forall a, load m' a = load m a) by (intros a; unfold load; now rewrite Hh). rewrite (map_ext _ _ L).
  induction (firstn n (arr m id)) as [|a l IH]; simpl; auto. destruct (check (load m a)); simpl; rewrite ?IH; auto.
Qed.
Lemma merge_rest_slice covs : forall id n pm m D acc,
  NoDup covs -> (forall s, In s covs -> s <> id /\ s < length (m_arrs m)) -> id < length (m_arrs m) ->
  firstn n (arr m id) = D -> length D = n ->
  NoDup (D ++ concat (map (arr m) covs)) -> (forall a, In a (concat (map (arr m) covs)) -> a < length (m_heap m)) -> rep m D acc pm ->
  let '(id', n', m') := merge_rest covs id n pm m in id' < length (m_arrs m') /\ n' <= length (arr m' id').
Proof.
  induction covs as [|s covs IH]; intros id n pm m D acc Nc Hc Hid HD Ln Nd Bd R; cbn [merge_rest].
  - split; auto. rewrite <- HD, firstn_length in Ln. lia.
  - destruct (Hc s (or_introl eq_refl)) as [Hs Ls]. simpl in Nd, Bd.
    pose proof (merge_loop_spec s (length (arr m s)) 0 id n pm m D acc (arr m s) Ls Hs Hid HD Ln eq_refl eq_refl) as M.
    rewrite app_assoc in Nd.
    assert (Nd1 : NoDup (D ++ arr m s)).
    { clear -Nd. induction (D ++ arr m s) as [|x l IHl]; [constructor|]. simpl in Nd. inversion Nd; subst. constructor; auto. intros I. apply H1, in_or_app. auto. }
    assert (Nd2 : NoDup (concat (map (arr m) covs))).
    { clear -Nd. induction (D ++ arr m s) as [|x l IHl]; auto. simpl in Nd. inversion Nd; auto. }
    specialize (M Nd1 (fun a I => Bd a (in_or_app _ _ _ (or_introl I))) R).
    destruct (merge_loop (length (arr m s)) 0 s id n pm m) as [[[id' n'] pm'] m'].
    destruct M as (I0 & I0' & I1 & I2 & I3 & I4 & I5 & I6 & I7).
    inversion Nc as [|? ? Nin Nc']. subst x l.
    assert (Ha : forall s', In s' covs -> arr m' s' = arr m s').
    { intros s' I. destruct (Hc s' (or_intror I)). apply I7; auto. }
    assert (Hm : map (arr m') covs = map (arr m) covs) by now apply map_ext_in.
    eapply IH; eauto.
    + intros s' I. destruct (Hc s' (or_intror I)) as [N L]. split; [destruct I0' as [->|I0']; auto; lia|lia].
    + rewrite Hm. assert (ND' : NoDup (firstn n' (arr m' id'))) by apply I1. clear -ND' Nd Nd2 I3.
      induction (firstn n' (arr m' id')) as [|x l IHl]; auto. simpl. inversion ND'; subst. constructor.
      * intros I. apply in_app_or in I as [I|I]; auto. apply (nodup_disjoint _ _ x Nd); auto. apply I3. now left.
      * apply IHl; auto. intros y I. apply I3. now right.
    + rewrite Hm, I5. intros a I. apply Bd, in_or_app. auto.
Qed.
Lemma merge_slice covs m : covs <> [] -> NoDup covs -> (forall s, In s covs -> s < length (m_arrs m)) ->
  NoDup (concat (map (arr m) covs)) -> (forall a, In a (concat (map (arr m) covs)) -> a < length (m_heap m)) ->
  let '(id', n', m') := merge covs m in id' < length (m_arrs m') /\ n' <= length (arr m' id').
Proof.
  destruct covs as [|s covs]; [congruence|]. intros _ Nc Hc Nd Bd. unfold merge. inversion Nc as [|? ? Nin Nc']. subst x l.
  simpl in Nd, Bd.
  assert (Nd1 : NoDup ([] ++ arr m s)).
  { simpl. clear -Nd. induction (arr m s) as [|x l IHl]; [constructor|]. simpl in Nd. inversion Nd; subst. constructor; auto. intros I. apply H1, in_or_app. auto. }
  assert (Nd2 : NoDup (concat (map (arr m) covs))).
  { clear -Nd. induction (arr m s) as [|x l IHl]; auto. simpl in Nd. inversion Nd; auto. }
  assert (R0 : rep m [] [] []).
  { constructor; auto; [constructor|intros a []|]. intros p a. simpl. split; [discriminate|tauto]. }
  pose proof (compact_spec s (length (arr m s)) 0 0 [] m [] [] (arr m s) (Hc s (or_introl eq_refl)) eq_refl eq_refl (le_n 0) eq_refl eq_refl Nd1
    (fun a I => Bd a (in_or_app _ _ _ (or_introl I))) R0) as C.
  destruct (compact_loop (length (arr m s)) 0 0 s [] m) as [[i pm] m'].
  destruct C as (I1 & I2 & I3 & I4 & I5 & I6 & I7 & I8). simpl app in I3, I4.
  assert (Ha : forall s', In s' covs -> arr m' s' = arr m s').
  { intros s' I. apply I8. intros ->. contradiction. }
  assert (Hm : map (arr m') covs = map (arr m) covs) by now apply map_ext_in.
  eapply merge_rest_slice; eauto.
  - intros s' I. split; [intros ->; contradiction|]. rewrite I6. apply Hc. now right.
  - rewrite I6. apply Hc. now left.
  - rewrite Hm. assert (ND' : NoDup (firstn i (arr m' s))) by apply I1. clear -ND' Nd Nd2 I3.
    induction (firstn i (arr m' s)) as [|x l IHl]; auto. simpl. inversion ND'; subst. constructor.
    + intros I. apply in_app_or in I as [I|I]; auto. apply (nodup_disjoint _ _ x Nd); auto. apply I3. now left.
    + apply IHl; auto. intros y I. apply I3. now right.
  - rewrite Hm, I5. intros a I. apply Bd, in_or_app. auto.
Qed.

(** ** Freshly parsed profiles share nothing *)
Lemma alloc_spec ps : forall m,
  let m' := alloc ps m in
  (exists h, m_heap m' = m_heap m ++ h) /\ (exists a, m_arrs m' = m_arrs m ++ a) /\
  length (m_arrs m') = length (m_arrs m) + length ps /\
  concat (map (arr m') (seq (length (m_arrs m)) (length ps))) = seq (length (m_heap m)) (length (concat ps)) /\
  length (m_heap m') = length (m_heap m) + length (concat ps) /\
  map (fun s => map (load m') (arr m' s)) (seq (length (m_arrs m)) (length ps)) = ps.
Proof.
  induction ps as [|p ps IH]; intros m; cbn [alloc].
  - simpl. repeat split; auto; try (exists []; now rewrite app_nil_r); lia.
  - set (m1 := Mem (m_heap m ++ p) (m_arrs m ++ [seq (length (m_heap m)) (length p)])).
    destruct (IH m1) as ([h Hh] & [a Ha] & L & C & Lh & V). set (m' := alloc ps m1) in *.
    assert (H1 : m_heap m1 = m_heap m ++ p) by reflexivity. assert (H2 : m_arrs m1 = m_arrs m ++ [seq (length (m_heap m)) (length p)]) by reflexivity.
    rewrite H1, H2 in *. rewrite !app_length in *. cbn [length] in *.
    assert (A0 : arr m' (length (m_arrs m)) = seq (length (m_heap m)) (length p)).
    { unfold arr. rewrite Ha, <- app_assoc, app_nth2, Nat.sub_diag by lia. reflexivity. }
    rewrite Nat.add_1_r in C, V.
    split; [exists (p ++ h); now rewrite Hh, app_assoc|]. split; [eexists; rewrite Ha, <- app_assoc; reflexivity|]. split; [lia|].
    split; [|split].
    + cbn [seq map concat]. rewrite A0. setoid_rewrite C. rewrite <- seq_app. now rewrite app_length.
    + rewrite Lh. cbn [concat]. rewrite app_length. lia.
    + cbn [seq map]. f_equal; [|exact V]. rewrite A0. unfold load, at_. rewrite Hh, <- app_assoc. clear.
      generalize (m_heap m) as g. induction p as [|x p IHp]; intros g; cbn [length seq map]; auto. f_equal.
      * now rewrite app_nth2, Nat.sub_diag by lia.
      * specialize (IHp (g ++ [x])). rewrite app_length, Nat.add_1_r in IHp. rewrite <- app_assoc in IHp. exact IHp.
Qed.

Lemma parse_int_int64 s z : parse_int s = Some z -> int64 z.
Proof.
  unfold parse_int, int64. destruct (match s with [] => _ | _ => _ end) as [neg d]. destruct d as [|c d]; [discriminate|].
  destruct (negb (forallb is_digit (c :: d))); [discriminate|].
  assert (P : (0 <= digits_value (c :: d))%Z).
  { unfold digits_value. generalize (c :: d) as l. enough (G : forall l a, (0 <= a)%Z -> (0 <= fold_left (fun a c => (10 * a + Z.of_nat (nat_of_ascii c - 48))%Z) l a)%Z) by (intros; apply G; lia).
    induction l as [|x l IH]; intros a H; cbn [fold_left]; auto. apply IH. lia. }
  set (v := digits_value (c :: d)) in *. clearbody v.
  destruct neg.
  - destruct (v <=? 2 ^ 63)%Z eqn:E; [|discriminate]. intros H. injection H as <-. apply Z.leb_le in E. lia.
  - destruct (v <? 2 ^ 63)%Z eqn:E; [|discriminate]. intros H. injection H as <-. apply Z.ltb_lt in E. lia.
Qed.
Lemma parsed_int64 c l : In l (snd (parse_profile c)) -> int64 (snd l).
Proof.
  assert (G : forall ls, In l (some_lines ls) -> int64 (snd l)).
  { induction ls as [|x ls IH]; simpl; [tauto|]. unfold parse_line. destruct (cut_last " "%char x) as [[p n]|]; auto. intros [<-|I]; auto.
    simpl. destruct (parse_int n) eqn:E; [now apply parse_int_int64 in E|]. unfold int64. lia. }
  unfold parse_profile. destruct (split nl c) as [|f r]; [simpl; tauto|]. destruct (has_prefix f #"mode:"); apply G.
Qed.

(** The command: for all files and all exclusions. *)
Theorem C30_command :
  forall contents exclude,
  merge_cover contents exclude =
  format_profile #"count"
    (filter (fun l => negb (has_any_prefix (fst l) exclude)) (merged (concat (map (fun c => snd (parse_profile c)) contents)))).
Proof.
  intros contents exclude. unfold merge_cover. set (ps := map (fun c => snd (parse_profile c)) contents).
  assert (Lp : length contents = length ps) by (unfold ps; now rewrite map_length). rewrite Lp.
  assert (Hps : forall q l, In q ps -> In l q -> int64 (snd l)).
  { intros q l Iq Il. unfold ps in Iq. apply in_map_iff in Iq as (c & <- & _). now apply parsed_int64 in Il. }
  clearbody ps. clear Lp.
  destruct (alloc_spec ps (Mem [] [])) as (_ & _ & L & C & Lh & V). set (m := alloc ps (Mem [] [])) in *. cbn [m_heap m_arrs length Nat.add] in *.
  f_equal. destruct ps as [|p ps'] eqn:Eps; [reflexivity|].
  assert (Nd : NoDup (concat (map (arr m) (seq 0 (length ps))))) by (rewrite Eps, C; apply seq_NoDup).
  assert (Bd : forall a, In a (concat (map (arr m) (seq 0 (length ps)))) -> a < length (m_heap m)).
  { rewrite Eps, C, Lh. intros a I. apply in_seq in I. lia. }
  assert (Hs : forall s, In s (seq 0 (length ps)) -> s < length (m_arrs m)).
  { intros s I. apply in_seq in I. rewrite L. rewrite Eps in I. lia. }
  rewrite <- Eps in *.
  pose proof (merge_slice (seq 0 (length ps)) m) as S. specialize (S ltac:(rewrite Eps; discriminate) (seq_NoDup _ _) Hs Nd Bd).
  pose proof (C30_merge_sums (seq 0 (length ps)) m (seq_NoDup _ _) Hs Nd Bd) as M.
  destruct (merge (seq 0 (length ps)) m) as [[id n] m']. destruct S as [S1 S2]. rewrite filter_slice_lines by auto. rewrite M.
  - f_equal. f_equal. f_equal. exact V.
  - intros a I. apply in_concat in I as (x & Ix & Ia). apply in_map_iff in Ix as (s & <- & Is).
    assert (Il : In (load m a) (concat ps)).
    { rewrite <- V. apply in_concat. exists (map (load m) (arr m s)). split; [apply in_map_iff; eauto|now apply in_map]. }
    apply in_concat in Il as (q & Iq & Il). now apply (Hps q).
Qed.
Print Assumptions C30_command.

(** ** Writing and reading *)
Lemma digits_value_app a c : digits_value (a ++ [c]) = (10 * digits_value a + Z.of_nat (nat_of_ascii c - 48))%Z.
Proof. unfold digits_value. now rewrite fold_left_app. Qed.
Lemma digit_char_spec d : (0 <= d < 10)%Z -> is_digit (digit_char d) = true /\ Z.of_nat (nat_of_ascii (digit_char d) - 48) = d.
Proof.
  intros H. unfold digit_char, is_digit. rewrite nat_ascii_embedding by lia. split; [|lia].
  apply andb_true_intro. split; apply Nat.leb_le; lia.
Qed.
Lemma fmt_digits_spec f : forall z, (0 <= z < 2 ^ Z.of_nat f)%Z -> 1 <= f ->
  fmt_digits f z <> [] /\ Forall (fun c => is_digit c = true) (fmt_digits f z) /\ digits_value (fmt_digits f z) = z.
Proof.
  induction f as [|f IH]; intros z H L; [lia|]. cbn [fmt_digits].
  assert (Hm : (0 <= z mod 10 < 10)%Z) by (apply Z.mod_pos_bound; lia). destruct (digit_char_spec _ Hm) as [Hd Hv].
  destruct (z <? 10)%Z eqn:E.
  - apply Z.ltb_lt in E. cbn [app]. split; [discriminate|]. split; [repeat constructor; auto|].
    change [digit_char (z mod 10)] with ([] ++ [digit_char (z mod 10)]). rewrite digits_value_app, Hv. rewrite Z.mod_small by lia. cbn. lia.
  - apply Z.ltb_ge in E. assert (f <> 0) by (intros ->; simpl in H; lia).
    assert (Hq : (0 <= z / 10 < 2 ^ Z.of_nat f)%Z).
    { split; [apply Z.div_pos; lia|]. apply Z.div_lt_upper_bound; [lia|]. rewrite Nat2Z.inj_succ, Z.pow_succ_r in H by lia. lia. }
    destruct (IH (z / 10)%Z Hq ltac:(lia)) as (N & F & V). split; [destruct (fmt_digits f (z / 10)); discriminate|].
    split; [apply Forall_app; split; auto|]. rewrite digits_value_app, V, Hv. pose proof (Z.div_mod z 10). lia.
Qed.
Lemma fmt_log z : (0 <= z)%Z -> let d := fmt_digits (S (Z.to_nat (Z.log2 z))) z in
  d <> [] /\ Forall (fun c => is_digit c = true) d /\ digits_value d = z.
Proof.
  intros H. apply fmt_digits_spec; [|lia]. split; auto. rewrite Nat2Z.inj_succ, Z2Nat.id by apply Z.log2_nonneg.
  destruct (Z.eq_dec z 0) as [->|N]; [reflexivity|]. apply Z.log2_spec. lia.
Qed.
Lemma digit_not c d : is_digit c = true -> is_digit d = false -> eqc c d = false.
Proof. intros H H'. apply eqc_neq. intros ->. congruence. Qed.
Lemma parse_format z : int64 z -> parse_int (format_int z) = Some z.
Proof.
  unfold int64. intros H. unfold parse_int, format_int.
  destruct (z <? 0)%Z eqn:E.
  - apply Z.ltb_lt in E. destruct (fmt_log (- z) ltac:(lia)) as (N & F & V). set (d := fmt_digits _ (- z)) in *. clearbody d.
    rewrite eqc_refl. destruct d as [|c d]; [congruence|].
    replace (forallb is_digit (c :: d)) with true by (symmetry; apply forallb_forall; rewrite Forall_forall in F; auto). cbn [negb].
    rewrite V. replace (- z <=? 2 ^ 63)%Z with true by (symmetry; apply Z.leb_le; lia). f_equal. lia.
  - apply Z.ltb_ge in E. destruct (fmt_log z E) as (N & F & V). set (d := fmt_digits _ z) in *. clearbody d.
    destruct d as [|c d]; [congruence|]. pose proof (Forall_inv F) as Hc.
    rewrite (digit_not c "-"%char Hc), (digit_not c "+"%char Hc) by reflexivity.
    replace (forallb is_digit (c :: d)) with true by (symmetry; apply forallb_forall; rewrite Forall_forall in F; auto). cbn [negb].
    rewrite V. replace (z <? 2 ^ 63)%Z with true; auto. symmetry. apply Z.ltb_lt. lia.
Qed.
Lemma format_int_chars z c : In c (format_int z) -> c <> " "%char /\ c <> nl.
Proof.
  assert (G : forall z, (0 <= z)%Z -> forall c, In c (fmt_digits (S (Z.to_nat (Z.log2 z))) z) -> c <> " "%char /\ c <> nl).
  { intros y Hy d I. destruct (fmt_log y Hy) as (_ & F & _). rewrite Forall_forall in F. specialize (F d I). split; intros ->; discriminate. }
  unfold format_int. destruct (z <? 0)%Z eqn:E.
  - apply Z.ltb_lt in E. intros [<-|I]; [split; discriminate|]. apply (G (- z)%Z); auto. lia.
  - apply Z.ltb_ge in E. apply (G z E).
Qed.
Definition writable (l : line) : Prop := ~ In nl (fst l) /\ int64 (snd l).
Lemma parse_line_format l : writable l -> parse_line (fst l ++ " "%char :: format_int (snd l)) = Some l.
Proof.
  intros [N H]. unfold parse_line. rewrite cut_last_some; [rewrite parse_format by auto; now destruct l|].
  intros I. now apply format_int_chars in I as [I _].
Qed.
(** Reading back what was written, for all lines. *)
Theorem C44_write_then_read :
  forall mode ls, ~ In nl mode -> trim_space (" "%char :: mode) = mode -> Forall writable ls ->
  parse_profile (format_profile mode ls) = (mode, ls).
Proof.
  intros mode ls Nm Tm F. unfold parse_profile, format_profile.
  rewrite split_join; [|discriminate|].
  - assert (P : has_prefix (#"mode: " ++ mode) #"mode:" = true) by reflexivity. rewrite P.
    f_equal; [exact Tm|]. clear -F. induction F as [|[p c] ls Hl F IH]; [reflexivity|]. cbn [map some_lines].
    pose proof (parse_line_format (p, c) Hl) as E. cbn [fst snd] in E. rewrite E. now rewrite IH.
  - constructor.
    + intros I. apply in_app_or in I as [I|I]; auto. simpl in I. intuition discriminate.
    + apply Forall_forall. intros x I. apply in_map_iff in I as ([p c] & <- & I). rewrite Forall_forall in F. destruct (F _ I) as [N _]. simpl in N.
      intros J. apply in_app_or in J as [J|[J|J]]; auto; [discriminate|]. now apply format_int_chars in J as [_ J].
Qed.
Print Assumptions C44_write_then_read.

Lemma parsed_writable c : Forall writable (snd (parse_profile c)).
Proof.
  apply Forall_forall. intros l I. split; [|now apply parsed_int64 in I].
  assert (G : forall ls, (forall x, In x ls -> ~ In nl x) -> In l (some_lines ls) -> ~ In nl (fst l)).
  { induction ls as [|x ls IH]; simpl; [tauto|]. intros H. unfold parse_line. destruct (cut_last " "%char x) as [[p n]|] eqn:E; auto.
    apply cut_last_sound in E as [-> _]. intros [<-|J]; [|apply IH; auto]. simpl. intros Ip. apply (H (p ++ " "%char :: n)); auto. apply in_or_app. auto. }
  unfold parse_profile in I. pose proof (split_no_sep nl c) as S. destruct (split nl c) as [|f r]; [destruct I|].
  destruct (has_prefix f #"mode:"); eapply G; try exact I; intros x J; apply S; simpl; auto.
Qed.
Lemma merged_writable ls : Forall writable ls -> Forall writable (merged ls).
Proof.
  rewrite !Forall_forall. intros F l I. unfold merged in I. apply in_map_iff in I as (p & <- & I). apply (proj1 (firsts_in _ _)) in I.
  apply in_map_iff in I as (l & <- & I). split; [apply (F l I)|apply wrap_int64].
Qed.

Definition lines_of (contents : list bytes) : list line := concat (map (fun c => snd (parse_profile c)) contents).
Lemma lines_writable g : Forall writable (lines_of g).
Proof. unfold lines_of. apply Forall_concat. apply Forall_map. apply Forall_forall. intros c _. apply parsed_writable. Qed.
Lemma cmd_lines contents ex :
  merge_cover contents ex = format_profile #"count" (merged (filter (keep (fun p => negb (has_any_prefix p ex))) (lines_of contents))).
Proof. rewrite C30_command. f_equal. exact (merged_filter (fun p => negb (has_any_prefix p ex)) (lines_of contents)). Qed.

(** Merging is independent of grouping: merging the outputs of merges gives what merging
    all inputs at once gives, for all files and exclusions. *)
Theorem C30_grouping :
  forall (groups : list (list bytes)) exclude,
  merge_cover (map (fun g => merge_cover g exclude) groups) exclude = merge_cover (concat groups) exclude.
Proof.
  intros groups ex. rewrite !cmd_lines. f_equal. set (f := fun p => negb (has_any_prefix p ex)).
  assert (E : forall g, snd (parse_profile (merge_cover g ex)) = merged (filter (keep f) (lines_of g))).
  { intros g. rewrite cmd_lines. fold f.
    rewrite C44_write_then_read; auto; [simpl; intuition discriminate|]. apply merged_writable.
    rewrite Forall_forall. intros l I. apply filter_In in I as [I _]. pose proof (lines_writable g) as Wg. rewrite Forall_forall in Wg. auto. }
  assert (L1 : lines_of (map (fun g => merge_cover g ex) groups) = concat (map (fun g => merged (filter (keep f) (lines_of g))) groups)).
  { unfold lines_of at 1. rewrite map_map. f_equal. apply map_ext. exact E. }
  assert (L2 : lines_of (concat groups) = concat (map lines_of groups)).
  { clear. induction groups as [|g gs IH]; simpl; auto. rewrite <- IH. unfold lines_of. now rewrite map_app, concat_app. }
  rewrite L1, L2. rewrite <- merged_filter.
  assert (X : merged (concat (map (fun g => merged (filter (keep f) (lines_of g))) groups)) = merged (filter (keep f) (concat (map lines_of groups)))).
  { rewrite <- (map_map (fun g => filter (keep f) (lines_of g)) merged). rewrite merged_concat. f_equal. clear. induction groups as [|g gs IH]; simpl; auto.
    rewrite filter_app. now rewrite IH. }
  rewrite X. rewrite merged_filter. f_equal.
  clear. induction (concat (map lines_of groups)) as [|x l IH]; simpl; auto. destruct (keep f x) eqn:K; simpl; rewrite ?K, ?IH; auto.
Qed.
Print Assumptions C30_grouping.

(** The count of a block does not depend on the order of the files, and every block of
    every order is listed exactly once. *)
Theorem C30_order :
  forall contents contents' : list bytes, Permutation contents contents' ->
  let m := merged (concat (map (fun c => snd (parse_profile c)) contents)) in
  let m' := merged (concat (map (fun c => snd (parse_profile c)) contents')) in
  Permutation m m' /\ NoDup (map fst m).
Proof.
  intros a b P m m'. split.
  - assert (Pl : Permutation (concat (map (fun c => snd (parse_profile c)) a)) (concat (map (fun c => snd (parse_profile c)) b))).
    { clear m m'. induction P; simpl; auto.
      - now apply Permutation_app_head.
      - rewrite !app_assoc. apply Permutation_app_tail, Permutation_app_comm.
      - now rewrite IHP1. }
    unfold m, m'. set (x := concat (map (fun c => snd (parse_profile c)) a)) in *. set (y := concat (map (fun c => snd (parse_profile c)) b)) in *.
    unfold merged.
    assert (T : forall p, total x p = total y p).
    { intros p. unfold total. clear -Pl. induction Pl; simpl; auto.
      - destruct (eqs (fst x) p); simpl; auto. now rewrite IHPl.
      - destruct (eqs (fst x) p), (eqs (fst y) p); simpl; auto. lia.
      - congruence. }
    assert (PF : Permutation (firsts (map fst x)) (firsts (map fst y))).
    { apply NoDup_Permutation; try apply firsts_nodup. intros p. rewrite !firsts_in.
      split; apply Permutation_in; [|symmetry]; now apply Permutation_map. }
    rewrite (Permutation_map (fun p => (p, wrap64 (total x p))) PF). apply Permutation_refl'. apply map_ext. intros p. now rewrite T.
  - unfold m. rewrite merged_keys. apply firsts_nodup.
Qed.
Print Assumptions C30_order.

Example C30_example :
  merge_cover [#"mode: set" ++ nl :: #"a.go:1.1,2.2 1 1" ++ nl :: #"b.go:1.1,2.2 1 0" ++ nl :: #"a.go:1.1,2.2 1 4";
               #"mode: set" ++ nl :: #"c.go:1.1,2.2 1 7" ++ nl :: #"a.go:1.1,2.2 1 10" ++ [nl]] [#"b.go"]
  = #"mode: count" ++ nl :: #"a.go:1.1,2.2 1 15" ++ nl :: #"c.go:1.1,2.2 1 7".
Proof. vm_compute. reflexivity. Qed.

(** *** Not every profile Go produces is read correctly *)
(** Appended profiles: the second mode line becomes a block called "mode:". *)
Theorem C44_appended_refuted :
  merge_cover [#"mode: set" ++ nl :: #"a 1 1" ++ nl :: #"mode: set" ++ nl :: #"b 1 1"] [] =
  #"mode: count" ++ nl :: #"a 1 1" ++ nl :: #"mode: 0" ++ nl :: #"b 1 1".
Proof. vm_compute. reflexivity. Qed.
(** Lines that end with CR LF, and counts that are no int64, silently count as 0. *)
Theorem C44_bad_counts_refuted :
  (forall prefix count, ~ In " "%char count -> parse_int count = None -> parse_line (prefix ++ " "%char :: count) = Some (prefix, 0%Z)) /\
  merge_cover [#"mode: set" ++ "013"%char :: nl :: #"a 1 5" ++ "013"%char :: nl :: #"b 1 9223372036854775808"] [] =
  #"mode: count" ++ nl :: #"a 1 0" ++ nl :: #"b 1 0".
Proof.
  split; [|vm_compute; reflexivity]. intros p c N E. unfold parse_line. rewrite cut_last_some by auto. now rewrite E.
Qed.
Print Assumptions C44_bad_counts_refuted.
