(** * C82: sessions of the test explorer *)
From Coq Require Import Ascii String List Arith Bool Lia.
From Verif Require Import M_Str M_Instrument T_Instrument2 T_Instrument3 T_Unified.
From Verif Require Import M_Session.
Import ListNotations.
Open Scope nat_scope. Open Scope list_scope.

Section Spec.
Context {E : Type}.
(** ** Specification *)
(** [runs ls w]: the calls and events [ls], oldest first, may be seen of a manager serving any number of
    requests at once, and leave it as [w]. *)
Inductive runs : list (label E) -> @world E -> Prop :=
| runs_nil : runs [] world0
| runs_snoc ls w l w' : runs ls w -> wstep w l w' -> runs (ls ++ [l]) w'.
(** The events put into session [c], with the call that did; those taken out of it. *)
Definition sends (c : nat) (ls : list (label E)) : list (nat * E) :=
  flat_map (fun l => match l with LSend t d e => if d =? c then [(t, e)] else [] | _ => [] end) ls.
Definition recvs (c : nat) (ls : list (label E)) : list (nat * E) :=
  flat_map (fun l => match l with LRecv t d e => if d =? c then [(t, e)] else [] | _ => [] end) ls.
(** Those of call [t]. *)
Definition of_call (t : nat) (l : list (nat * E)) : list E := map snd (filter (fun x => fst x =? t) l).
Definition prefix_of (a b : list E) : Prop := exists r, b = a ++ r.
End Spec.

(** ** Proofs *)
Section Put.
Context {A : Type}.
Lemma put_split (l : list A) : forall i x, nth_error l i = Some x -> l = firstn i l ++ x :: skipn (S i) l.
Proof. induction l as [|y l IH]; intros [|i] x H; try discriminate; cbn in *; [now injection H as ->|]. f_equal. now apply IH. Qed.
Lemma put_length (l : list A) i x y : nth_error l i = Some x -> length (put l i y) = length l.
Proof. intros H. rewrite (put_split l i x H) at 2. unfold put. now rewrite !app_length. Qed.
Lemma nth_put_same (l : list A) i x y : nth_error l i = Some x -> nth_error (put l i y) i = Some y.
Proof.
  intros H. assert (i < length l) by (apply nth_error_Some; congruence). unfold put. rewrite nth_error_app2; rewrite firstn_length_le by lia; [|lia].
  now rewrite Nat.sub_diag.
Qed.
Lemma nth_put_other (l : list A) : forall i j x y, nth_error l i = Some x -> j <> i -> nth_error (put l i y) j = nth_error l j.
Proof.
  induction l as [|z l IH]; intros [|i] j x y H N; try discriminate; cbn in *.
  - destruct j; [lia|]. reflexivity.
  - destruct j; [reflexivity|]. cbn. apply (IH i j x y H). lia.
Qed.
Lemma nth_put (l : list A) i j x y : nth_error l i = Some x -> nth_error (put l i y) j = if j =? i then Some y else nth_error l j.
Proof. intros H. destruct (Nat.eqb_spec j i) as [->|N]; [eapply nth_put_same; eauto|eapply nth_put_other; eauto]. Qed.
Lemma nth_snoc (l : list A) x j : nth_error (l ++ [x]) j = if j =? length l then Some x else nth_error l j.
Proof.
  destruct (Nat.eqb_spec j (length l)) as [->|N].
  - rewrite nth_error_app2, Nat.sub_diag by lia. reflexivity.
  - destruct (lt_dec j (length l)) as [L|L]; [now rewrite nth_error_app1 by lia|].
    rewrite nth_error_app2 by lia. destruct (j - length l) as [|k] eqn:D; [lia|]. cbn. rewrite (proj2 (nth_error_None l j)) by lia. now destruct k.
Qed.
End Put.
#[local] Opaque put capacity.

Section Proofs.
Context {E : Type}.
Implicit Types (ls : list (label E)) (w : @world E).
Lemma sends_snoc c ls l : sends c (ls ++ [l]) = sends c ls ++ match l with LSend t d e => if d =? c then [(t, e)] else [] | _ => [] end.
Proof. unfold sends. rewrite flat_map_app. cbn. now rewrite app_nil_r. Qed.
Lemma recvs_snoc c ls l : recvs c (ls ++ [l]) = recvs c ls ++ match l with LRecv t d e => if d =? c then [(t, e)] else [] | _ => [] end.
Proof. unfold recvs. rewrite flat_map_app. cbn. now rewrite app_nil_r. Qed.
Lemma of_call_app t (a b : list (nat * E)) : of_call t (a ++ b) = of_call t a ++ of_call t b.
Proof. unfold of_call. now rewrite filter_app, map_app. Qed.

Definition queue (w : @world E) (c : nat) : list E := nth c (chans w) [].
Lemma queue_eq w c q : nth_error (chans w) c = Some q -> queue w c = q.
Proof. intros H. unfold queue. now apply nth_error_nth. Qed.
Lemma nth_put_q (l : list (list E)) i j x y : nth_error l i = Some x -> nth j (put l i y) [] = if j =? i then y else nth j l [].
Proof.
  intros H. pose proof (nth_put l i j x y H) as K. destruct (j =? i).
  - now apply nth_error_nth.
  - destruct (nth_error l j) as [z|] eqn:F; [rewrite (nth_error_nth _ _ _ K); symmetry; now apply nth_error_nth|].
    apply nth_error_None in K, F. rewrite !nth_overflow by lia. reflexivity.
Qed.
Lemma nth_snoc_q (l : list (list E)) j : nth j (l ++ [[]]) [] = nth j l [].
Proof.
  destruct (lt_dec j (length l)) as [L|L]; [now rewrite app_nth1|].
  rewrite app_nth2 by lia. rewrite (nth_overflow l) by lia. destruct (j - length l) as [|[|k]]; reflexivity.
Qed.

(** The events of a session: those received, then those in the channel. *)
Lemma delivery ls w : runs ls w -> forall c, map snd (sends c ls) = map snd (recvs c ls) ++ queue w c /\ length (queue w c) <= capacity.
Proof.
  induction 1 as [|ls w l w' R IH St]; intros c.
  - unfold queue. cbn. destruct c; cbn; split; auto; lia.
  - destruct (IH c) as [Q L]. rewrite sends_snoc, recvs_snoc, !map_app.
    inversion St; subst; unfold queue in *; cbn [chans setw map app]; rewrite ?app_nil_r; try (split; [assumption|assumption]).
    + rewrite nth_snoc_q. auto.
    + rewrite (nth_put_q _ _ _ _ _ H0), (Nat.eqb_sym c0 c). destruct (Nat.eqb_spec c c0) as [->|N]; [|cbn; rewrite ?app_nil_r; auto].
      rewrite (nth_error_nth _ _ _ H0) in Q. rewrite app_length. cbn in *. rewrite Q, app_assoc. split; [reflexivity|lia].
    + rewrite (nth_put_q _ _ _ _ _ H0), (Nat.eqb_sym c0 c). destruct (Nat.eqb_spec c c0) as [->|N]; [|cbn; rewrite ?app_nil_r; auto].
      rewrite (nth_error_nth _ _ _ H0) in Q, L. cbn in *. rewrite Q, <- app_assoc. split; [reflexivity|lia].
Qed.

(** What each call has done so far. *)
Definition calls (ls : list (label E)) : list (@thread E) := flat_map (fun l => match l with LCall _ x => [x] | _ => [] end) ls.
Lemma calls_snoc ls l : calls (ls ++ [l]) = calls ls ++ match l with LCall _ x => [x] | _ => [] end.
Proof. unfold calls. rewrite flat_map_app. cbn. now rewrite app_nil_r. Qed.
Definition quiet ls t : Prop := (forall c, of_call t (sends c ls) = []) /\ (forall c, of_call t (recvs c ls) = []).
Definition progress ls (t : nat) (x0 x : @thread E) : Prop :=
  match x with
  | Start0 k => x0 = Start0 k /\ quiet ls t
  | Start1 k n => x0 = Start0 k /\ quiet ls t
  | Sending c todo => exists done, x0 = Sending c (done ++ todo) /\ (forall d, of_call t (sends d ls) = if d =? c then done else []) /\ (forall d, of_call t (recvs d ls) = [])
  | Poll0 id => x0 = Poll0 id /\ quiet ls t
  | Polling c ev _ => (exists id, x0 = Poll0 id) /\ (forall d, of_call t (recvs d ls) = if d =? c then ev else []) /\ (forall d, of_call t (sends d ls) = [])
  | Destroy0 id => x0 = Destroy0 id /\ quiet ls t
  | Done => match x0 with
            | Start0 _ | Destroy0 _ => quiet ls t
            | Sending c evs => (forall d, of_call t (sends d ls) = if d =? c then evs else []) /\ (forall d, of_call t (recvs d ls) = [])
            | Poll0 _ => (forall d, of_call t (sends d ls) = []) /\ (quiet ls t \/ exists c ev b, In (LPolled t c ev b) ls /\ forall d, of_call t (recvs d ls) = if d =? c then ev else [])
            | _ => False
            end
  end.
Definition mute (l : label E) : Prop := match l with LSend _ _ _ | LRecv _ _ _ => False | _ => True end.
Lemma mute_sends c ls l : mute l -> sends c (ls ++ [l]) = sends c ls.
Proof. intros M. rewrite sends_snoc. destruct l; cbn in M |- *; try tauto; apply app_nil_r. Qed.
Lemma mute_recvs c ls l : mute l -> recvs c (ls ++ [l]) = recvs c ls.
Proof. intros M. rewrite recvs_snoc. destruct l; cbn in M |- *; try tauto; apply app_nil_r. Qed.
Lemma progress_mono ls ls' t x0 x : (forall d, of_call t (sends d ls') = of_call t (sends d ls)) -> (forall d, of_call t (recvs d ls') = of_call t (recvs d ls)) ->
  (forall l, In l ls -> In l ls') -> progress ls t x0 x -> progress ls' t x0 x.
Proof.
  intros S R I. assert (Q : quiet ls t -> quiet ls' t). { intros [A B]. split; intros c; [now rewrite S|now rewrite R]. }
  destruct x; cbn.
  - intros [-> H]; auto.
  - intros [-> H]; auto.
  - intros (d & -> & A & B). exists d. repeat split; intros; rewrite ?S, ?R; auto.
  - intros [-> H]; auto.
  - intros (A & B & C). repeat split; auto; intros; rewrite ?S, ?R; auto.
  - intros [-> H]; auto.
  - destruct x0; auto.
    + intros [A B]. split; intros; rewrite ?S, ?R; auto.
    + intros [A B]. split; [intros; rewrite S; auto|]. destruct B as [B|(c & ev & b & B & C)]; [left; auto|right; exists c, ev, b; split; auto; intros; rewrite R; auto].
Qed.
Lemma of_call_one t t' (e : E) : of_call t [(t', e)] = if t' =? t then [e] else [].
Proof. unfold of_call. cbn. destruct (t' =? t); reflexivity. Qed.
Record inv ls w : Prop := {
  i_len : length (calls ls) = length (threads w);
  i_call : forall t x, In (LCall t x) ls -> nth_error (calls ls) t = Some x;
  i_thread : forall t x0 x, nth_error (calls ls) t = Some x0 -> nth_error (threads w) t = Some x -> progress ls t x0 x;
  i_new : forall t, length (threads w) <= t -> quiet ls t;
  i_sent : forall t c, In (LSent t c) ls -> nth_error (threads w) t = Some Done /\ exists evs, nth_error (calls ls) t = Some (Sending c evs);
  i_polled : forall t c ev b, In (LPolled t c ev b) ls -> nth_error (threads w) t = Some Done /\ (exists id, nth_error (calls ls) t = Some (Poll0 id)) /\
     (forall d, of_call t (recvs d ls) = if d =? c then ev else []) /\ (ev = [] -> b = true) }.
Lemma inv_nil : inv [] world0.
Proof. constructor; cbn; try tauto; try (intros [|t]; cbn; discriminate). intros; split; reflexivity. Qed.
(** A step that leaves the events alone and replaces thread [i]. *)
Lemma quiet_mute ls l t : mute l -> quiet ls t -> quiet (ls ++ [l]) t.
Proof. intros M [A B]. split; intros c; [rewrite mute_sends|rewrite mute_recvs]; auto. Qed.
Lemma inv_mute ls w l w' i x x' : inv ls w -> mute l -> (forall t y, l <> LCall t y) -> nth_error (threads w) i = Some x -> threads w' = put (threads w) i x' -> x <> Done ->
  (forall x0, nth_error (calls ls) i = Some x0 -> progress ls i x0 x -> progress (ls ++ [l]) i x0 x') ->
  (forall t c, l = LSent t c -> t = i /\ x' = Done /\ x = Sending c []) ->
  (forall t c ev b, l = LPolled t c ev b -> t = i /\ x' = Done /\ (exists b', x = Polling c ev b') /\ (ev = [] -> b = true)) -> inv (ls ++ [l]) w'.
Proof.
  intros [I1 I2 I3 I4 I5 I6] M NC T T' ND P S Q.
  assert (C : calls (ls ++ [l]) = calls ls). { rewrite calls_snoc. destruct l; try apply app_nil_r. exfalso. now apply (NC t x0). }
  assert (Keep : forall t, nth_error (threads w) t = Some Done -> nth_error (threads w') t = Some Done).
  { intros t H. rewrite T', (nth_put _ _ _ _ _ T). destruct (Nat.eqb_spec t i) as [->|]; [congruence|assumption]. }
  constructor; rewrite ?C.
  - rewrite T', (put_length _ _ _ _ T). assumption.
  - intros t y H. apply in_app_or in H as [H|[H|[]]]; auto. exfalso. now apply (NC t y).
  - intros t x0 y A B. rewrite T', (nth_put _ _ _ _ _ T) in B. destruct (Nat.eqb_spec t i) as [->|N].
    + injection B as <-. apply P; auto.
    + apply (progress_mono ls).
      * intros d. now rewrite mute_sends.
      * intros d. now rewrite mute_recvs.
      * intros z H. apply in_or_app; auto.
      * now apply I3.
  - intros t L. rewrite T', (put_length _ _ _ _ T) in L. apply quiet_mute; auto.
  - intros t c H. apply in_app_or in H as [H|[H|[]]].
    + destruct (I5 _ _ H) as [A B]. auto.
    + subst l. destruct (S _ _ eq_refl) as (-> & -> & ->).
      split; [rewrite T'; eapply nth_put_same; eauto|].
      destruct (nth_error (calls ls) i) as [x0|] eqn:X0.
      * pose proof (I3 _ _ _ X0 T) as (d & -> & _). exists d. now rewrite app_nil_r.
      * apply nth_error_None in X0. assert (i < length (threads w)) by (apply nth_error_Some; congruence). lia.
  - intros t c ev b H. apply in_app_or in H as [H|[H|[]]].
    + destruct (I6 _ _ _ _ H) as (A & B & D & F). split; [auto|]. split; [auto|]. split; [|auto]. intros d. rewrite mute_recvs by assumption. apply D.
    + subst l. destruct (Q _ _ _ _ eq_refl) as (-> & -> & (b' & ->) & F).
      split; [rewrite T'; eapply nth_put_same; eauto|].
      destruct (nth_error (calls ls) i) as [x0|] eqn:X0.
      * pose proof (I3 _ _ _ X0 T) as ((id & ->) & D & _). split; [now exists id|]. split; [|auto]. intros d. rewrite mute_recvs by assumption. apply D.
      * apply nth_error_None in X0. assert (i < length (threads w)) by (apply nth_error_Some; congruence). lia.
Qed.
Lemma runs_inv ls w : runs ls w -> inv ls w.
Proof.
  induction 1 as [|ls w l w' R IH St]; [apply inv_nil|].
  destruct St as [w x Hx|w i k T|w i k n T|w i c e todo q T HQ HL|w i c T|w i id c T Hl|w i id T Hl|w i c ev b e q T HQ|w i c ev T|w i c ev T|w i c e ev T HQ|w i c T HQ|w i id T].
  - (* call *)
    destruct IH as [I1 I2 I3 I4 I5 I6].
    assert (C : calls (ls ++ [LCall (length (threads w)) x]) = calls ls ++ [x]) by apply calls_snoc.
    constructor; rewrite ?C; cbn [threads].
    + rewrite !app_length. cbn. lia.
    + intros t y H. rewrite nth_snoc. apply in_app_or in H as [H|[H|[]]].
      * pose proof (I2 _ _ H) as G. assert (t < length (calls ls)) by (apply nth_error_Some; congruence). destruct (Nat.eqb_spec t (length (calls ls))); [lia|assumption].
      * injection H as <- <-. now rewrite I1, Nat.eqb_refl.
    + intros t x0 y A B. rewrite nth_snoc in A, B. rewrite I1 in A. destruct (Nat.eqb_spec t (length (threads w))) as [->|N].
      * injection A as <-. injection B as <-. assert (Q : quiet (ls ++ [LCall (length (threads w)) x]) (length (threads w))) by (apply quiet_mute; [exact I|now apply I4]).
        destruct x; try contradiction; cbn; auto. exists []. destruct Q as [Q1 Q2]. split; [reflexivity|]. split; intros; rewrite ?Q1, ?Q2; auto. now destruct (d =? c).
      * apply (progress_mono ls).
        -- intros d. now rewrite mute_sends.
        -- intros d. now rewrite mute_recvs.
        -- intros z H. apply in_or_app; auto.
        -- now apply I3.
    + intros t L. rewrite app_length in L. cbn in L. apply quiet_mute; [exact I|apply I4; lia].
    + intros t c H. apply in_app_or in H as [H|[H|[]]]; [|discriminate H]. destruct (I5 _ _ H) as [A (evs & B)].
      assert (t < length (threads w)) by (apply nth_error_Some; congruence). rewrite !nth_error_app1 by lia. eauto.
    + intros t c ev b H. apply in_app_or in H as [H|[H|[]]]; [|discriminate H]. destruct (I6 _ _ _ _ H) as (A & B & D & F).
      assert (t < length (threads w)) by (apply nth_error_Some; congruence). rewrite !nth_error_app1 by lia. repeat split; auto. intros d. rewrite mute_recvs by exact I. apply D.
  - eapply inv_mute with (i := i); [exact IH|exact I|discriminate|exact T|reflexivity|discriminate| | |]; try discriminate. intros x0 _ [-> Q]. split; [reflexivity|]. apply quiet_mute; auto. exact I.
  - eapply inv_mute with (i := i); [exact IH|exact I|discriminate|exact T|reflexivity|discriminate| | |]; try discriminate. intros x0 _ [-> Q]. apply quiet_mute; auto. exact I.
  - (* send *)
    destruct IH as [I1 I2 I3 I4 I5 I6].
    assert (C : calls (ls ++ [LSend i c e]) = calls ls) by (rewrite calls_snoc; apply app_nil_r).
    assert (S : forall t d, of_call t (sends d (ls ++ [LSend i c e])) = of_call t (sends d ls) ++ if (c =? d) && (i =? t) then [e] else []).
    { intros t d. rewrite sends_snoc, of_call_app. destruct (c =? d); cbn [andb]; [now rewrite of_call_one|reflexivity]. }
    assert (R' : forall d, recvs d (ls ++ [LSend i c e]) = recvs d ls) by (intros; rewrite recvs_snoc; apply app_nil_r).
    assert (Li : i < length (threads w)) by (apply nth_error_Some; congruence).
    constructor; rewrite ?C; cbn [threads]; rewrite ?(put_length _ _ _ _ T); auto.
    + intros t y H. apply in_app_or in H as [H|[H|[]]]; [auto|discriminate H].
    + intros t x0 y A B. rewrite (nth_put _ _ _ _ _ T) in B. destruct (Nat.eqb_spec t i) as [->|N].
      * injection B as <-. destruct (I3 _ _ _ A T) as (d & -> & D1 & D2). exists (d ++ [e]). rewrite <- app_assoc. split; [reflexivity|]. split.
        -- intros k. rewrite S, D1, Nat.eqb_refl, andb_true_r, (Nat.eqb_sym c k). destruct (k =? c); [reflexivity|reflexivity].
        -- intros k. now rewrite R'.
      * apply (progress_mono ls).
        -- intros k. rewrite S. destruct (Nat.eqb_spec i t); [lia|]. rewrite andb_false_r. apply app_nil_r.
        -- intros k. now rewrite R'.
        -- intros z H. apply in_or_app; auto.
        -- now apply I3.
    + intros t L. destruct (I4 t L) as [A B]. split; intros k; [rewrite S, A; destruct (Nat.eqb_spec i t); [lia|now rewrite andb_false_r]|now rewrite R'].
    + intros t d H. apply in_app_or in H as [H|[H|[]]]; [|discriminate H]. destruct (I5 _ _ H) as [A B]. split; [|auto].
      rewrite (nth_put _ _ _ _ _ T). destruct (Nat.eqb_spec t i) as [->|]; [congruence|auto].
    + intros t d ev b H. apply in_app_or in H as [H|[H|[]]]; [|discriminate H]. destruct (I6 _ _ _ _ H) as (A & B & D & F). split; [|split; [auto|split; [|auto]]].
      * rewrite (nth_put _ _ _ _ _ T). destruct (Nat.eqb_spec t i) as [->|]; [congruence|auto].
      * intros k. rewrite R'. apply D.
  - eapply inv_mute with (i := i); [exact IH|exact I|discriminate|exact T|reflexivity|discriminate| | |]; try discriminate.
    + intros x0 _ (d & -> & A & B). cbn. rewrite app_nil_r. split; intros; rewrite ?mute_sends, ?mute_recvs by exact I; auto.
    + intros t d Hx. injection Hx as <- <-. auto.
  - eapply inv_mute with (i := i); [exact IH|exact I|discriminate|exact T|reflexivity|discriminate| | |]; try discriminate. intros x0 _ [-> Q]. destruct (quiet_mute _ (LGot i id (Some c)) _ I Q) as [Q1 Q2].
    split; [eauto|]. split; [|exact Q1]. intros d. rewrite Q2. now destruct (d =? c).
  - eapply inv_mute with (i := i); [exact IH|exact I|discriminate|exact T|reflexivity|discriminate| | |]; try discriminate. intros x0 _ [-> Q]. pose proof (quiet_mute _ (LGot i id None) _ I Q) as Q'. cbn. split; [apply Q'|auto].
  - (* receive *)
    destruct IH as [I1 I2 I3 I4 I5 I6].
    assert (C : calls (ls ++ [LRecv i c e]) = calls ls) by (rewrite calls_snoc; apply app_nil_r).
    assert (S : forall t d, of_call t (recvs d (ls ++ [LRecv i c e])) = of_call t (recvs d ls) ++ if (c =? d) && (i =? t) then [e] else []).
    { intros t d. rewrite recvs_snoc, of_call_app. destruct (c =? d); cbn [andb]; [now rewrite of_call_one|reflexivity]. }
    assert (R' : forall d, sends d (ls ++ [LRecv i c e]) = sends d ls) by (intros; rewrite sends_snoc; apply app_nil_r).
    assert (Li : i < length (threads w)) by (apply nth_error_Some; congruence).
    constructor; rewrite ?C; cbn [threads]; rewrite ?(put_length _ _ _ _ T); auto.
    + intros t y H. apply in_app_or in H as [H|[H|[]]]; [auto|discriminate H].
    + intros t x0 y A B. rewrite (nth_put _ _ _ _ _ T) in B. destruct (Nat.eqb_spec t i) as [->|N].
      * injection B as <-. destruct (I3 _ _ _ A T) as (D0 & D1 & D2). split; [exact D0|]. split.
        -- intros k. rewrite S, D1, Nat.eqb_refl, andb_true_r, (Nat.eqb_sym c k). destruct (k =? c); [reflexivity|reflexivity].
        -- intros k. now rewrite R'.
      * apply (progress_mono ls).
        -- intros k. now rewrite R'.
        -- intros k. rewrite S. destruct (Nat.eqb_spec i t); [lia|]. rewrite andb_false_r. apply app_nil_r.
        -- intros z H. apply in_or_app; auto.
        -- now apply I3.
    + intros t L. destruct (I4 t L) as [A B]. split; intros k; [now rewrite R'|rewrite S, B; destruct (Nat.eqb_spec i t); [lia|now rewrite andb_false_r]].
    + intros t d H. apply in_app_or in H as [H|[H|[]]]; [|discriminate H]. destruct (I5 _ _ H) as [A B]. split; [|auto].
      rewrite (nth_put _ _ _ _ _ T). destruct (Nat.eqb_spec t i) as [->|]; [congruence|auto].
    + intros t d ev' b' H. apply in_app_or in H as [H|[H|[]]]; [|discriminate H]. destruct (I6 _ _ _ _ H) as (A & B & D & F).
      destruct (Nat.eqb_spec i t) as [->|N]; [congruence|]. split; [|split; [auto|split; [|auto]]].
      * rewrite (nth_put _ _ _ _ _ T). destruct (Nat.eqb_spec t i) as [->|]; [congruence|auto].
      * intros k. rewrite S. destruct (Nat.eqb_spec i t); [lia|]. rewrite andb_false_r, app_nil_r. apply D.
  - eapply inv_mute with (i := i); [exact IH|exact I|discriminate|exact T|reflexivity|discriminate| | |]; try discriminate. intros x0 _ (A & B & D). split; [exact A|]. split; intros; rewrite ?mute_sends, ?mute_recvs by exact I; auto.
  - eapply inv_mute with (i := i); [exact IH|exact I|discriminate|exact T|reflexivity|discriminate| | |]; try discriminate.
    + intros x0 _ ((id & ->) & B & D). cbn. split; [intros; rewrite mute_sends by exact I; auto|]. right. exists c, ev, true. split; [apply in_or_app; cbn; auto|]. intros. rewrite mute_recvs by exact I. auto.
    + intros t d ev' b' Hx. injection Hx as <- <- <- <-. eauto.
  - eapply inv_mute with (i := i); [exact IH|exact I|discriminate|exact T|reflexivity|discriminate| | |]; try discriminate.
    + intros x0 _ ((id & ->) & B & D). cbn. split; [intros; rewrite mute_sends by exact I; auto|]. right. exists c, (e :: ev), false. split; [apply in_or_app; cbn; auto|]. intros. rewrite mute_recvs by exact I. auto.
    + intros t d ev' b' Hx. injection Hx as <- <- <- <-. split; [auto|split; [auto|split; [eauto|discriminate]]].
  - apply (inv_mute ls w LInner w i (Polling c [] false) (Polling c [] false)); auto; try discriminate; try exact I.
    + clear -T. rewrite (put_split _ _ _ T) at 1. reflexivity.
    + intros x0 _ (A & B & D). split; [exact A|]. split; intros; rewrite ?mute_sends, ?mute_recvs by exact I; auto.
  - eapply inv_mute with (i := i); [exact IH|exact I|discriminate|exact T|reflexivity|discriminate| | |]; try discriminate. intros x0 _ [-> Q]. apply quiet_mute; auto. exact I.
Qed.

(** ** C82 *)
(** Whatever calls overlap: of each session, the events received are those sent, in the order they were
    sent, each once, and all but the last hundred at most. *)
Theorem C82_in_order_once ls w : runs ls w -> forall c, exists pending, map snd (sends c ls) = map snd (recvs c ls) ++ pending /\ length pending <= 100.
Proof. intros R c. destruct (delivery _ _ R c) as [A B]. exists (queue w c). auto. Qed.
(** SendEvents sends its events in order, all of them by its return, to its session only. *)
Theorem C82_send ls w : runs ls w -> forall t c evs, In (LCall t (Sending c evs)) ls ->
  prefix_of (of_call t (sends c ls)) evs /\ (In (LSent t c) ls -> of_call t (sends c ls) = evs) /\ (forall d, d <> c -> of_call t (sends d ls) = []).
Proof.
  intros R t c evs H. pose proof (runs_inv _ _ R) as [I1 I2 I3 I4 I5 I6]. pose proof (I2 _ _ H) as X0.
  destruct (nth_error (threads w) t) as [x|] eqn:T.
  - pose proof (I3 _ _ _ X0 T) as P.
    assert (K : forall done rest, evs = done ++ rest -> (forall d, of_call t (sends d ls) = if d =? c then done else []) ->
       prefix_of (of_call t (sends c ls)) evs /\ (forall d, d <> c -> of_call t (sends d ls) = [])).
    { intros done rest -> D. split; [rewrite D, Nat.eqb_refl; now exists rest|]. intros d N. rewrite D. destruct (Nat.eqb_spec d c); [lia|reflexivity]. }
    destruct x; cbn in P; try (destruct P as [P _]; discriminate P); try (destruct P as [[? P] _]; discriminate P).
    + destruct P as (done & P & D & _). injection P as <- ->. destruct (K _ _ eq_refl D) as [K1 K2]. split; [exact K1|split; [|exact K2]].
      intros S. destruct (I5 _ _ S) as [S' _]. congruence.
    + destruct P as [D _]. destruct (K evs [] (eq_sym (app_nil_r _)) D) as [K1 K2]. split; [exact K1|split; [|exact K2]]. intros _. now rewrite D, Nat.eqb_refl.
  - apply nth_error_None in T. assert (t < length (calls ls)) by (apply nth_error_Some; congruence). lia.
Qed.
(** PollEvents returns all that it received, in order, and nothing else; it returns no event only after its
    timeout. *)
Theorem C82_poll ls w : runs ls w -> forall t c evs timeout, In (LPolled t c evs timeout) ls ->
  of_call t (recvs c ls) = evs /\ (forall d, d <> c -> of_call t (recvs d ls) = []) /\ (evs = [] -> timeout = true).
Proof.
  intros R t c evs b H. pose proof (runs_inv _ _ R) as [I1 I2 I3 I4 I5 I6]. destruct (I6 _ _ _ _ H) as (_ & _ & D & F).
  split; [now rewrite D, Nat.eqb_refl|]. split; [|exact F]. intros d N. rewrite D. destruct (Nat.eqb_spec d c); [lia|reflexivity].
Qed.
(** A session that is not polled takes a hundred events: a call sending more never returns. *)
Theorem C82_unpolled_sender_waits ls w : runs ls w -> forall t c evs, In (LCall t (Sending c evs)) ls -> recvs c ls = [] -> 100 < length evs -> ~ In (LSent t c) ls.
Proof.
  intros R t c evs H N L S. destruct (C82_send _ _ R _ _ _ H) as (_ & K & _). specialize (K S).
  destruct (C82_in_order_once _ _ R c) as (p & Q & B). rewrite N in Q. cbn in Q. subst p. rewrite map_length in B.
  assert (F : forall (l : list (nat * E)), length (of_call t l) <= length l). { intros l. unfold of_call. rewrite map_length. induction l as [|y l IH]; cbn; [lia|]. destruct (fst y =? t); cbn; lia. }
  specialize (F (sends c ls)). rewrite K in F. lia.
Qed.

(** *** Identifiers *)
Record idinv ls w : Prop := {
  d_count : forall t k n, nth_error (threads w) t = Some (Start1 k n) -> 0 < n <= next w;
  d_uniq : forall t t' k k' n, nth_error (threads w) t = Some (Start1 k n) -> nth_error (threads w) t' = Some (Start1 k' n) -> t = t';
  d_started : forall t id c, In (LStarted t id c) ls -> c < length (chans w) /\ exists k n, id = session_id k n /\ 0 < n <= next w /\ (forall t' k', nth_error (threads w) t' <> Some (Start1 k' n));
  d_nodup : NoDup (flat_map (fun l => match l with LStarted _ id c => [id] | _ => [] end) ls);
  d_chans : NoDup (flat_map (fun l => match l with LStarted _ id c => [c] | _ => [] end) ls);
  d_ids : forall id c, In (id, c) (mapping w) -> exists t, In (LStarted t id c) ls }.
Lemma session_id_inj k n k' n' : session_id k n = session_id k' n' -> n = n'.
Proof.
  unfold session_id. intros H. apply app_inv_head in H.
  apply us_split in H as [_ H]; [|apply itoa_no_us|apply itoa_no_us]. now apply itoa_inj in H.
Qed.
Definition started (ls : list (label E)) := flat_map (fun l => match l with LStarted _ id c => [id] | _ => [] end) ls.
Definition started_c (ls : list (label E)) := flat_map (fun l => match l with LStarted _ id c => [c] | _ => [] end) ls.
Lemma in_started ls id : In id (started ls) <-> exists t c, In (LStarted t id c) ls.
Proof.
  unfold started. rewrite in_flat_map. split.
  - intros (l & I & J). destruct l; cbn in J; try tauto. destruct J as [->|[]]. eauto.
  - intros (t & c & I). exists (LStarted t id c). cbn. auto.
Qed.
Lemma in_started_c ls c : In c (started_c ls) <-> exists t id, In (LStarted t id c) ls.
Proof.
  unfold started_c. rewrite in_flat_map. split.
  - intros (l & I & J). destruct l; cbn in J; try tauto. destruct J as [->|[]]. eauto.
  - intros (t & id & I). exists (LStarted t id c). cbn. auto.
Qed.
Lemma nodup_snoc {A} (l : list A) x : NoDup l -> ~ In x l -> NoDup (l ++ [x]).
Proof. intros N H. apply NoDup_rev in N. rewrite <- (rev_involutive (l ++ [x])). apply NoDup_rev. rewrite rev_app_distr. cbn. constructor; [now rewrite <- in_rev|exact N]. Qed.
Definition start1 (x : @thread E) : option nat := match x with Start1 _ n => Some n | _ => None end.
Lemma idinv_same ls w l w' : idinv ls w -> (forall t id c, l <> LStarted t id c) -> next w' = next w -> length (chans w') = length (chans w) ->
  (forall p, In p (mapping w') -> In p (mapping w)) -> (forall t k n, nth_error (threads w') t = Some (Start1 k n) -> nth_error (threads w) t = Some (Start1 k n)) -> idinv (ls ++ [l]) w'.
Proof.
  intros [D1 D2 D3 D4 D5 D6] NL N C M T. fold started in D4. fold started_c in D5.
  constructor; rewrite ?N, ?C.
  - intros t k n H. apply (D1 t k). auto.
  - intros t t' k k' n A B. eauto.
  - intros t id c H. apply in_app_or in H as [H|[H|[]]]; [|exfalso; eapply NL; eauto]. destruct (D3 _ _ _ H) as (A & k & n & B & L & G). split; [auto|]. exists k, n. split; [auto|split; [auto|]].
    intros t' k' X. apply T in X. eapply G; eauto.
  - rewrite flat_map_app. cbn. destruct l; cbn; rewrite ?app_nil_r; auto. exfalso. eapply NL; eauto.
  - rewrite flat_map_app. cbn. destruct l; cbn; rewrite ?app_nil_r; auto. exfalso. eapply NL; eauto.
  - intros id c H. apply M in H. destruct (D6 _ _ H) as (t & J). exists t. apply in_or_app; auto.
Qed.
Lemma runs_idinv ls w : runs ls w -> idinv ls w.
Proof.
  induction 1 as [|ls w l w' R IH St].
  - constructor; cbn; try tauto; try apply NoDup_nil; try (intros [|t]; cbn; discriminate); intros [|t]; cbn; discriminate.
  - assert (Put : forall i x y, nth_error (threads w) i = Some x -> (forall k n, y <> Start1 k n) -> forall t k n, nth_error (put (threads w) i y) t = Some (Start1 k n) -> nth_error (threads w) t = Some (Start1 k n)).
    { intros i x y T N t k n H. rewrite (nth_put _ _ _ _ _ T) in H. destruct (t =? i); [|exact H]. injection H as H. exfalso. eapply N; eauto. }
    destruct St as [w x Hx|w i k T|w i k n T|w i c e todo q T HQ HL|w i c T|w i id c T Hl|w i id T Hl|w i c ev b e q T HQ|w i c ev T|w i c ev T|w i c e ev T HQ|w i c T HQ|w i id T];
      try (apply (idinv_same ls w); [exact IH|discriminate|reflexivity| | |]; cbn [setw next chans mapping threads]; auto; try (eapply Put; [eassumption|discriminate]); try (eapply put_length; eassumption)).
    + intros t k n H. rewrite nth_snoc in H. destruct (t =? length (threads w)); [|exact H]. injection H as ->. contradiction.
    + (* count *)
      destruct IH as [D1 D2 D3 D4 D5 D6].
      assert (Cases : forall t k' n', nth_error (put (threads w) i (Start1 k (S (next w)))) t = Some (Start1 k' n') -> (t = i /\ n' = S (next w)) \/ (t <> i /\ nth_error (threads w) t = Some (Start1 k' n'))).
      { intros t k' n' H. rewrite (nth_put _ _ _ _ _ T) in H. destruct (Nat.eqb_spec t i) as [->|N]; [injection H as <- <-; auto|auto]. }
      constructor; cbn [next chans mapping threads].
      * intros t k' n' H. destruct (Cases _ _ _ H) as [[-> ->]|[_ H']]; [lia|]. specialize (D1 _ _ _ H'). lia.
      * intros t t' k1 k2 n' A B. destruct (Cases _ _ _ A) as [[-> ->]|[_ A']], (Cases _ _ _ B) as [[-> Hn]|[_ B']]; auto.
        -- specialize (D1 _ _ _ B'). lia.
        -- subst n'. specialize (D1 _ _ _ A'). lia.
        -- eauto.
      * intros t id c H. apply in_app_or in H as [H|[H|[]]]; [|discriminate H]. destruct (D3 _ _ _ H) as (A & k' & n' & B & L & G). split; [auto|]. exists k', n'. split; [auto|split; [lia|]].
        intros t' k1 X. destruct (Cases _ _ _ X) as [[-> ->]|[_ X']]; [lia|eapply G; eauto].
      * rewrite flat_map_app. cbn. now rewrite app_nil_r.
      * rewrite flat_map_app. cbn. now rewrite app_nil_r.
      * intros id c H. destruct (D6 _ _ H) as (t & J). exists t. apply in_or_app; auto.
    + (* store *)
      destruct IH as [D1 D2 D3 D4 D5 D6]. fold (started ls) in D4. fold (started_c ls) in D5.
      assert (Cases : forall t k' n', nth_error (put (threads w) i Done) t = Some (Start1 k' n') -> t <> i /\ nth_error (threads w) t = Some (Start1 k' n')).
      { intros t k' n' H. rewrite (nth_put _ _ _ _ _ T) in H. destruct (Nat.eqb_spec t i) as [->|N]; [discriminate H|auto]. }
      constructor; cbn [next chans mapping threads].
      * intros t k' n' H. apply Cases in H as [_ H]. eauto.
      * intros t t' k1 k2 n' A B. apply Cases in A as [_ A]. apply Cases in B as [_ B]. eauto.
      * intros t id c H. rewrite app_length. cbn. apply in_app_or in H as [H|[H|[]]].
        -- destruct (D3 _ _ _ H) as (A & k' & n' & B & L & G). split; [lia|]. exists k', n'. split; [auto|split; [auto|]]. intros t' k1 X. apply Cases in X as [_ X]. eapply G; eauto.
        -- injection H as <- <- <-. split; [lia|]. exists k, n. split; [auto|split; [eauto|]]. intros t' k1 X. apply Cases in X as [N X]. apply N. eapply D2; eauto.
      * rewrite flat_map_app. cbn. apply nodup_snoc; [exact D4|]. intros J. apply in_started in J as (t & c & J). destruct (D3 _ _ _ J) as (_ & k' & n' & B & _ & G).
        apply session_id_inj in B. subst n'. eapply G; eauto.
      * rewrite flat_map_app. cbn. apply nodup_snoc; [exact D5|]. intros J. apply in_started_c in J as (t & id & J). destruct (D3 _ _ _ J) as (A & _). lia.
      * intros id c H. unfold store in H. destruct H as [H|H].
        -- injection H as <- <-. exists i. apply in_or_app; cbn; auto.
        -- destruct (D6 _ _ H) as (t & J). exists t. apply in_or_app; auto.
    + intros p H. unfold delete in H. apply filter_In in H. tauto.
Qed.

(** Two calls of Start return different identifiers and different sessions. *)
Theorem C82_ids_unique ls w : runs ls w -> forall t1 id1 c1 t2 id2 c2 a b d, ls = a ++ LStarted t1 id1 c1 :: b ++ LStarted t2 id2 c2 :: d -> id1 <> id2 /\ c1 <> c2.
Proof.
  intros R t1 id1 c1 t2 id2 c2 a b d ->. destruct (runs_idinv _ _ R) as [_ _ _ D4 D5 _].
  rewrite flat_map_app in D4, D5. cbn in D4, D5. rewrite flat_map_app in D4, D5. cbn in D4, D5.
  apply NoDup_remove_2 in D4. apply NoDup_remove_2 in D5. split; intros ->; [apply D4|apply D5]; rewrite !in_app_iff; cbn; auto.
Qed.
(** Get: a session that was started and not destroyed since is found, and is that one. *)
Lemma load_delete m id id' : load (delete m id) id' = if eqs id id' then None else load m id'.
Proof.
  induction m as [|[k c] m IH]; cbn; [now destruct (eqs id id')|]. destruct (eqs k id) eqn:K; cbn.
  - apply eqs_eq in K. subst k. fold (delete m id). rewrite IH. destruct (eqs id id'); reflexivity.
  - destruct (eqs k id') eqn:K'; [|exact IH]. apply eqs_eq in K'. subst k. destruct (eqs id id') eqn:X; [|reflexivity]. apply eqs_eq in X. subst. now rewrite eqs_refl in K.
Qed.
(** What Get should return after [ls]. *)
Definition latest (ls : list (label E)) (id : bytes) : option nat :=
  fold_left (fun r l => match l with LStarted _ k c => if eqs k id then Some c else r | LDestroyed _ k => if eqs k id then None else r | _ => r end) ls None.
Lemma load_latest ls w : runs ls w -> forall id, load (mapping w) id = latest ls id.
Proof.
  induction 1 as [|ls w l w' R IH St]; intros id; [reflexivity|]. unfold latest in *. rewrite fold_left_app. cbn [fold_left]. rewrite <- IH.
  inversion St; subst; cbn [setw mapping]; auto.
  apply load_delete.
Qed.
Theorem C82_get ls w : runs ls w -> forall a b t id r, ls = a ++ LGot t id r :: b -> r = latest a id.
Proof.
  induction 1 as [|ls w l w' R IH St]; intros a b t id r H; [destruct a; discriminate H|].
  destruct b as [|y b _] using rev_ind.
  - apply app_inj_tail in H as [-> ->]. rewrite <- (load_latest _ _ R). inversion St; subst; auto.
  - rewrite app_comm_cons, app_assoc in H. apply app_inj_tail in H as [-> ->]. eauto.
Qed.
End Proofs.

(** *** Non-vacuity: two overlapping calls, the second polling what the first sends. *)
Fixpoint do {E} (w : @world E) (rs : list (label E)) (w' : @world E) : Prop :=
  match rs with [] => w' = w | l :: r => exists u, wstep w l u /\ do u r w' end.
Lemma runs_do {E} rs : forall ls (w w' : @world E), runs ls w -> do w rs w' -> runs (ls ++ rs) w'.
Proof.
  induction rs as [|l r IH]; intros ls w w' R D.
  - cbn in D. subst. now rewrite app_nil_r.
  - destruct D as (u & S & D). change (l :: r) with ([l] ++ r). rewrite app_assoc. eapply IH; [|exact D]. eapply runs_snoc; eauto.
Qed.
Definition id1 : bytes := session_id #"2024-01-01_00:00:00" 1.
#[local] Transparent put capacity.
Example C82_example : exists w : @world nat, runs [LCall 0 (Start0 #"2024-01-01_00:00:00"); LInner; LStarted 0 id1 0; LCall 1 (Sending 0 [7; 8]); LSend 1 0 7;
   LCall 2 (Poll0 id1); LGot 2 id1 (Some 0); LRecv 2 0 7; LSend 1 0 8; LSent 1 0; LRecv 2 0 8; LPolled 2 0 [7; 8] false] w.
Proof.
  eexists. eapply (runs_do _ [] world0).
  { constructor. }
  cbn [do].
  eexists. split; [apply (w_call nat world0 (Start0 #"2024-01-01_00:00:00") I)|]. cbn [world0 next mapping chans threads app length].
  eexists. split; [apply w_count with (i := 0); reflexivity|]. cbn [next mapping chans threads put firstn skipn app].
  eexists. split; [eapply w_store with (i := 0); reflexivity|]. cbn [next mapping chans threads put firstn skipn app store length].
  eexists. split; [refine (w_call nat {| next := 1; mapping := _; chans := [[]]; threads := [Done] |} (Sending 0 [7; 8]) _); cbn; lia|]. cbn [next mapping chans threads app length].
  eexists. split; [eapply w_send with (i := 1); [reflexivity|reflexivity|cbn; unfold capacity; lia]|]. cbn [next mapping chans threads put firstn skipn app length].
  eexists. split; [refine (w_call nat {| next := _; mapping := _; chans := _; threads := [_; _] |} (Poll0 id1) I)|]. cbn [next mapping chans threads app length].
  eexists. split; [eapply w_get with (i := 2); reflexivity|]. cbn [setw next mapping chans threads put firstn skipn app length].
  eexists. split; [eapply w_recv with (i := 2); reflexivity|]. cbn [setw next mapping chans threads put firstn skipn app length].
  eexists. split; [eapply w_send with (i := 1); [reflexivity|reflexivity|cbn; unfold capacity; lia]|]. cbn [next mapping chans threads put firstn skipn app length].
  eexists. split; [eapply w_sent with (i := 1); reflexivity|]. cbn [setw next mapping chans threads put firstn skipn app length].
  eexists. split; [eapply w_recv with (i := 2); reflexivity|]. cbn [setw next mapping chans threads put firstn skipn app length].
  eexists. split; [eapply w_default with (i := 2); reflexivity|]. reflexivity.
Qed.
