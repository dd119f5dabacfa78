(** * The trace viewer: the page (C97), the durations (C98) *)
From Coq Require Import Ascii String List Arith Bool Lia ZArith.
From Verif Require Import M_Str P_Str M_Coverage M_TraceView.
Import ListNotations.
Open Scope nat_scope.
Open Scope list_scope.

(** ** Specification *)
Section eind.
  Variable P : entry -> Prop.
  Hypothesis H : forall x, (forall c, In (Some c) (e_children x) -> P c) -> P x.
  Fixpoint entry_ind' (x : entry) : P x.
  Proof.
    apply H. destruct x as [a i b d ar re p pl er ch]; cbn.
    induction ch as [|o ch IH]; cbn; [tauto|]. destruct o as [y|].
    - pose proof (entry_ind' y) as Q. intros c [E|Hc]; [injection E as <-; exact Q|now apply IH].
    - intros c [E|Hc]; [discriminate|now apply IH].
  Qed.
End eind.

(** The calls of a trace in the order they began, each with the calls it is in (innermost first). *)
Fixpoint calls (outer : list entry) (e : entry) : list (entry * list entry) :=
  match e with
  | Entry _ _ _ _ _ _ _ _ _ ch =>
      (e, outer) ::
      (fix go (l : list (option entry)) : list (entry * list entry) :=
         match l with
         | [] => []
         | None :: r => go r
         | Some c :: r => calls (e :: outer) c ++ go r
         end) ch
  end.
(** No entry is null, at any depth. *)
Inductive no_null : entry -> Prop :=
| NoNull e : (forall o, In o (e_children e) -> exists c, o = Some c /\ no_null c) -> no_null e.

(** What a browser makes of the page: the rows of the table of details, and the heads of the list, each with the
    numbers of the sub-lists it lies in (innermost first); None when the tags do not match. *)
Fixpoint rows (l : list piece) : list (nat * entry) :=
  match l with [] => [] | PRow i d :: r => (i, d) :: rows r | _ :: r => rows r end.
Fixpoint pushed (l : list piece) : list nat :=
  match l with [] => [] | PPush i :: r => i :: pushed r | _ :: r => pushed r end.
Record head := { h_id : nat; h_toggle : bool; h_panic : bool; h_error : bool; h_name : bytes; h_cost : bytes; h_in : list nat }.
Inductive tag := TSub (id : nat) | TLi.
Fixpoint subs (st : list tag) : list nat := match st with [] => [] | TSub i :: r => i :: subs r | TLi :: r => subs r end.
Fixpoint heads (st : list tag) (l : list piece) : option (list head) :=
  match l with
  | [] => match st with [] => Some [] | _ => None end
  | PHead i t p er n c :: r =>
      match heads st r with
      | Some hs => Some ({| h_id := i; h_toggle := t; h_panic := p; h_error := er; h_name := n; h_cost := c; h_in := subs st |} :: hs)
      | None => None
      end
  | PSub i :: r => heads (TSub i :: st) r
  | PEndSub :: r => match st with TSub _ :: st => heads st r | _ => None end
  | PLi :: r => heads (TLi :: st) r
  | PEndLi :: r => match st with TLi :: st => heads st r | _ => None end
  | _ :: r => heads st r
  end.

(** The entries of the page: for each stack a root entry, then what is below it. *)
Definition root_name (many : bool) (i : nat) : bytes := if many then #"<root_" ++ format_int (Z.of_nat i) ++ #">" else #"<root>".
Fixpoint roots (name : nat -> bytes) (i : nat) (l : list (nat * stack)) : list entry :=
  match l with [] => [] | (a, s) :: r => top_entry a (name i) s :: roots name (S i) r end.
Definition page_calls (name : nat -> bytes) (l : list (nat * stack)) : list (entry * list entry) :=
  flat_map (calls []) (roots name 0 l).

(** The name an item shows. *)
Definition display_name (e : entry) : bytes :=
  match e_fi e with
  | Some f => match fi_name f with [] => #"<unknown>" | n => n end
  | None => #"<unknown>"
  end.

(** ** Proofs *)
Lemma shown_display e : shown_name e = display_name e.
Proof. unfold shown_name, display_name. destruct (e_fi e) as [f|]; reflexivity. Qed.
Fixpoint kids (l : list (option entry)) : list entry :=
  match l with [] => [] | None :: r => kids r | Some c :: r => c :: kids r end.
Lemma in_kids l c : In c (kids l) <-> In (Some c) l.
Proof.
  induction l as [|[x|] l IH]; cbn; [tauto| |]; rewrite IH.
  - split; (intros [E|E]; [left; congruence|now right]).
  - split; [now right|intros [E|E]; [discriminate|exact E]].
Qed.
Lemma calls_eq o e : calls o e = (e, o) :: flat_map (calls (e :: o)) (kids (e_children e)).
Proof.
  destruct e as [a i b d ar re p pl er ch]. cbn [calls e_children]. f_equal.
  remember (Entry a i b d ar re p pl er ch) as e. clear Heqe.
  induction ch as [|[c|] ch IH]; cbn; [reflexivity| |exact IH]. now rewrite <- IH.
Qed.
Definition plain (e : entry) : list entry := map fst (calls [] e).
Lemma calls_fst o e : map fst (calls o e) = plain e.
Proof.
  unfold plain. generalize (@nil entry) as o2. revert o. induction e as [e IH] using entry_ind'. intros o o2.
  rewrite !calls_eq. cbn. f_equal.
  assert (K : forall c, In c (kids (e_children e)) -> In (Some c) (e_children e)) by (intros; now apply in_kids).
  revert K. generalize (kids (e_children e)) as l. induction l as [|c l IHl]; intros K; [reflexivity|].
  cbn. rewrite !map_app. f_equal; [apply IH, K; now left|apply IHl; intros; apply K; now right].
Qed.
Lemma calls_list_fst o l : map fst (flat_map (calls o) l) = flat_map plain l.
Proof. induction l as [|c r IHr]; [reflexivity|]. cbn [flat_map]. now rewrite map_app, calls_fst, IHr. Qed.
Lemma plain_eq e : plain e = e :: flat_map plain (kids (e_children e)).
Proof.
  unfold plain at 1. rewrite calls_eq. cbn. f_equal. induction (kids (e_children e)) as [|c l IH]; [reflexivity|].
  cbn. now rewrite map_app, calls_fst, IH.
Qed.

(** *** walk *)
Definition row (i : nat) (e : entry) : list piece := [PRow i (without_children e); PPush i].
Fixpoint row_list (n : nat) (l : list entry) : list piece := match l with [] => [] | e :: r => row n e ++ row_list (S n) r end.
Fixpoint map_list (n : nat) (l : list entry) (m : idmap) : idmap := match l with [] => m | e :: r => map_list (S n) r ((e_addr e, n) :: m) end.
Definition after (l : list entry) (s : wst) : wst :=
  {| w_next := w_next s + length l; w_map := map_list (w_next s) l (w_map s); w_out := w_out s ++ row_list (w_next s) l |}.
Lemma map_list_app n l1 l2 m : map_list n (l1 ++ l2) m = map_list (n + length l1) l2 (map_list n l1 m).
Proof. revert n m; induction l1; intros; cbn; [now rewrite Nat.add_0_r|]. rewrite IHl1. f_equal. lia. Qed.
Lemma row_list_app n l1 l2 : row_list n (l1 ++ l2) = row_list n l1 ++ row_list (n + length l1) l2.
Proof. revert n; induction l1; intros; cbn; [now rewrite Nat.add_0_r|]. rewrite IHl1. now rewrite Nat.add_succ_r. Qed.
Lemma after_app l1 l2 s : after (l1 ++ l2) s = after l2 (after l1 s).
Proof. unfold after; cbn. rewrite app_length, map_list_app, row_list_app, app_assoc. f_equal. lia. Qed.
Lemma after_nil s : after [] s = s.
Proof. destruct s; unfold after; cbn. now rewrite Nat.add_0_r, app_nil_r. Qed.
Fixpoint walk_list (l : list (option entry)) (s : wst) : wst * bool :=
  match l with
  | [] => (s, true)
  | None :: _ => ({| w_next := S (w_next s); w_map := w_map s; w_out := w_out s |}, false)
  | Some c :: r => let '(s, ok) := walk c s in if ok then walk_list r s else (s, false)
  end.
Lemma walk_eq e s : walk e s = walk_list (e_children e) (after [e] s).
Proof.
  destruct e as [a i b d ar re p pl er ch]. unfold after. cbn. rewrite Nat.add_1_r. reflexivity.
Qed.
Lemma walk_ok e s : no_null e -> walk e s = (after (plain e) s, true).
Proof.
  revert s; induction e as [e IH] using entry_ind'; intros s N. inversion N as [? K]; subst. clear N.
  rewrite walk_eq, plain_eq. change (e :: flat_map plain (kids (e_children e))) with ([e] ++ flat_map plain (kids (e_children e))). rewrite after_app. generalize (after [e] s) as s0.
  induction (e_children e) as [|o l IHl]; intros s0; [cbn; now rewrite after_nil|].
  destruct (K o (or_introl eq_refl)) as (c & -> & Nc). cbn [walk_list kids flat_map].
  rewrite IH by (auto; now left). rewrite after_app. apply IHl; [intros; apply IH; [now right|auto]|intros; apply K; now right].
Qed.
Lemma no_null_dec e : no_null e \/ ~ no_null e.
Proof.
  induction e as [c IH] using entry_ind'.
  assert (D : (forall o, In o (e_children c) -> exists x, o = Some x /\ no_null x) \/ ~ (forall o, In o (e_children c) -> exists x, o = Some x /\ no_null x)).
  { induction (e_children c) as [|o l IHl]; [left; intros ? []|].
    destruct o as [x|]; [|right; intros K; destruct (K None (or_introl eq_refl)) as (? & E & _); discriminate].
    destruct (IH x (or_introl eq_refl)) as [Nx|Nx]; [|right; intros K; destruct (K _ (or_introl eq_refl)) as (? & [= <-] & Z); auto].
    destruct IHl as [A|A]; [intros; apply IH; now right| |].
    - left. intros o [<-|I]; eauto.
    - right. intros K. apply A. intros o I. apply K. now right. }
  destruct D as [D|D]; [left; now constructor|right; intros Q; inversion Q; subst; auto].
Qed.
Lemma walk_bad e s : ~ no_null e -> snd (walk e s) = false.
Proof.
  revert s; induction e as [e IH] using entry_ind'; intros s N. rewrite walk_eq. generalize (after [e] s) as s0. clear s.
  assert (K : ~ forall o, In o (e_children e) -> exists c, o = Some c /\ no_null c) by (intros K; apply N; now constructor). clear N.
  induction (e_children e) as [|o l IHl]; intros s0; [exfalso; apply K; intros ? []|].
  destruct o as [c|]; [|reflexivity]. cbn [walk_list]. destruct (walk c s0) as [s1 ok] eqn:W.
  destruct ok; [|reflexivity]. apply IHl; [intros; apply IH; [now right|auto]|].
  intros K'. apply K. intros o [<-|I]; [|now apply K'].
  exists c. split; [reflexivity|].
  destruct (no_null_dec c) as [D|D]; [exact D|]. specialize (IH c (or_introl eq_refl) s0 D). rewrite W in IH. discriminate.
Qed.

Definition tops_plain (l : list (nat * stack)) : list entry := flat_map plain (roots (fun _ => #"<root>") 0 l).
Lemma roots_const (x : bytes) i j l : roots (fun _ => x) i l = roots (fun _ => x) j l.
Proof. revert i j; induction l as [|[a s] l IH]; intros; [reflexivity|]. cbn. f_equal. apply IH. Qed.
Lemma walk_tops_ok l s : Forall (fun '(a, st) => no_null (top_entry a #"<root>" st)) l -> walk_tops l s = (after (tops_plain l) s, true).
Proof.
  unfold tops_plain. revert s; induction l as [|[a st] l IH]; intros s F; [cbn; now rewrite after_nil|].
  inversion F; subst. cbn [walk_tops roots flat_map]. rewrite walk_ok by auto. rewrite IH by auto.
  now rewrite after_app, (roots_const #"<root>" 1 0).
Qed.
Lemma walk_tops_bad l s : ~ Forall (fun '(a, st) => no_null (top_entry a #"<root>" st)) l -> snd (walk_tops l s) = false.
Proof.
  revert s; induction l as [|[a st] l IH]; intros s F; [exfalso; apply F; constructor|].
  cbn [walk_tops]. destruct (walk (top_entry a #"<root>" st) s) as [s1 ok] eqn:W. destruct ok; [|reflexivity].
  apply IH. intros G. apply F. constructor; [|exact G].
  destruct (no_null_dec (top_entry a #"<root>" st)) as [Y|Y]; [exact Y|]. apply (walk_bad _ s) in Y. rewrite W in Y. discriminate.
Qed.

(** *** the map *)
Lemma id_of_other n l m a : ~ In a (map e_addr l) -> id_of (map_list n l m) a = id_of m a.
Proof.
  revert n m; induction l as [|e l IH]; intros n m N; [reflexivity|]. cbn in *. rewrite IH by tauto. cbn.
  destruct (Nat.eqb_spec (e_addr e) a); [exfalso; tauto|reflexivity].
Qed.
Lemma id_of_nth n l m i e : NoDup (map e_addr l) -> nth_error l i = Some e -> id_of (map_list n l m) (e_addr e) = n + i.
Proof.
  revert n m i; induction l as [|x l IH]; intros n m i D E; [destruct i; discriminate|]. inversion D; subst.
  destruct i as [|i]; cbn in E.
  - injection E as ->. cbn. rewrite id_of_other by auto. cbn. rewrite Nat.eqb_refl. lia.
  - cbn. rewrite (IH (S n) _ i) by auto. lia.
Qed.

(** *** the list *)
Definition head_of (m : idmap) (st : list nat) (e : entry) : head :=
  {| h_id := id_of m (e_addr e);
     h_toggle := match e_children e with [] => false | _ => true end;
     h_panic := e_panic e; h_error := match e_err e with [] => false | _ => true end;
     h_name := escape_html (shown_name e); h_cost := format_cost (e_begin e) (e_end e); h_in := st |}.
Definition omap {A B} (f : A -> B) (o : option A) : option B := match o with Some a => Some (f a) | None => None end.
Definition render_list (m : idmap) : list (option entry) -> list piece :=
  fix go (l : list (option entry)) : list piece :=
  match l with
  | [] => []
  | None :: r => go r
  | Some c :: r => (PLi :: render_item m c ++ [PEndLi]) ++ go r
  end.
Lemma render_list_none m r : render_list m (None :: r) = render_list m r.
Proof. reflexivity. Qed.
Lemma render_list_some m c r : render_list m (Some c :: r) = (PLi :: render_item m c ++ [PEndLi]) ++ render_list m r.
Proof. reflexivity. Qed.
Lemma render_item_eq m e :
  render_item m e =
  PHead (id_of m (e_addr e)) (match e_children e with [] => false | _ => true end) (e_panic e) (match e_err e with [] => false | _ => true end)
        (escape_html (shown_name e)) (format_cost (e_begin e) (e_end e))
  :: match e_children e with [] => [] | _ => PSub (id_of m (e_addr e)) :: render_list m (e_children e) ++ [PEndSub] end.
Proof. destruct e as [a i b d ar re p pl er ch]. destruct ch; reflexivity. Qed.
Lemma heads_item m e (outer : list entry) st rest :
  subs st = map (fun o => id_of m (e_addr o)) outer ->
  heads st (render_item m e ++ rest) =
  omap (app (map (fun '(c, o) => head_of m (map (fun o => id_of m (e_addr o)) o) c) (calls outer e))) (heads st rest).
Proof.
  revert outer st rest; induction e as [e IH] using entry_ind'; intros outer st rest E.
  rewrite render_item_eq, calls_eq. cbn [app heads map]. rewrite E.
  assert (T : (match e_children e with [] => false | _ => true end) = h_toggle (head_of m [] e)) by reflexivity. rewrite T.
  destruct (e_children e) as [|o0 l0] eqn:C.
  - cbn. unfold head_of; cbn. rewrite C. now destruct (heads st rest).
  - rewrite <- C in IH |- *. clear T o0 l0 C. cbn [app heads]. rewrite <- app_assoc.
    set (st1 := TSub (id_of m (e_addr e)) :: st).
    assert (L : forall l, (forall c, In (Some c) l -> In (Some c) (e_children e)) -> forall rest,
              heads st1 (render_list m l ++ rest) =
              omap (app (map (fun '(c, o) => head_of m (map (fun o => id_of m (e_addr o)) o) c) (flat_map (calls (e :: outer)) (kids l)))) (heads st1 rest)).
    { induction l as [|[c|] l IHl]; intros K r; rewrite ?render_list_none, ?render_list_some; cbn [kids flat_map]; try (cbn [app map]).
      - change (render_list m [] ++ r) with r. now destruct (heads st1 r).
      - rewrite <- app_assoc. cbn [app heads]. rewrite <- app_assoc.
        rewrite (IH c (K c (or_introl eq_refl)) (e :: outer)) by (cbn; now rewrite E).
        cbn [app heads]. rewrite IHl by (intros; apply K; now right). rewrite map_app.
        destruct (heads st1 r); cbn; [|reflexivity]. now rewrite <- app_assoc.
      - apply IHl. intros; apply K; now right. }
    rewrite (L (e_children e)) by auto. unfold st1. cbn [app heads]. destruct (heads st rest); reflexivity.
Qed.
Lemma heads_tops m l rest :
  heads [] (flat_map (render_item m) l ++ rest) =
  omap (app (map (fun '(c, o) => head_of m (map (fun o => id_of m (e_addr o)) o) c) (flat_map (calls []) l))) (heads [] rest).
Proof.
  induction l as [|e l IH]; cbn [flat_map app]; [cbn; now destruct (heads [] rest)|].
  rewrite <- app_assoc, (heads_item m e []) by reflexivity. rewrite IH, map_app. destruct (heads [] rest); cbn; [|reflexivity].
  now rewrite <- app_assoc.
Qed.
Lemma heads_rows n l rest : heads [] (row_list n l ++ rest) = heads [] rest.
Proof. revert n; induction l; intros; [reflexivity|]. apply IHl. Qed.
Lemma rows_app a b : rows (a ++ b) = rows a ++ rows b.
Proof. induction a as [|[]]; cbn; congruence. Qed.
Lemma pushed_app a b : pushed (a ++ b) = pushed a ++ pushed b.
Proof. induction a as [|[]]; cbn; congruence. Qed.
Lemma rows_list n l : rows (row_list n l) = combine (seq n (length l)) (map without_children l).
Proof. revert n; induction l; intros; cbn; [reflexivity|]. now rewrite IHl. Qed.
Lemma pushed_list n l : pushed (row_list n l) = seq n (length l).
Proof. revert n; induction l; intros; cbn; [reflexivity|]. now rewrite IHl. Qed.
Lemma rows_render m l : rows (flat_map (render_item m) l) = [] /\ pushed (flat_map (render_item m) l) = [].
Proof.
  assert (R : forall e, rows (render_item m e) = [] /\ pushed (render_item m e) = []).
  { induction e as [e IH] using entry_ind'. rewrite render_item_eq. cbn [rows pushed].
    destruct (e_children e) as [|o l0] eqn:C; [split; reflexivity|]. rewrite <- C in *. clear C o l0. cbn [rows pushed].
    rewrite rows_app, pushed_app. cbn. rewrite !app_nil_r.
    induction (e_children e) as [|[c|] l0 IHl]; [split; reflexivity| |].
    - rewrite render_list_some. cbn [app rows pushed]. rewrite !rows_app, !pushed_app. destruct (IH c (or_introl eq_refl)) as [-> ->]. cbn.
      apply IHl. intros; apply IH; now right.
    - apply IHl. intros; apply IH; now right. }
  induction l as [|e l [A B]]; [split; reflexivity|]. cbn. rewrite rows_app, pushed_app, A, B. destruct (R e) as [-> ->]. split; reflexivity.
Qed.
Lemma number_tops_roots many i l : number_tops many i l = roots (root_name many) i l.
Proof. revert i; induction l as [|[a s] l IH]; intros; [reflexivity|]. cbn. now rewrite IH. Qed.
Lemma tops_same_addr f g i l : map e_addr (flat_map plain (roots f i l)) = map e_addr (flat_map plain (roots g i l)).
Proof.
  revert i; induction l as [|[a s] l IH]; intros; [reflexivity|]. cbn [roots flat_map]. rewrite !map_app, IH. f_equal.
  rewrite !plain_eq. reflexivity.
Qed.
Lemma page_calls_fst f l : map fst (page_calls f l) = flat_map plain (roots f 0 l).
Proof. unfold page_calls. induction (roots f 0 l); [reflexivity|]. cbn. now rewrite map_app, calls_fst, IHl0. Qed.

(** ** C97 *)
(** Every call has one row and one head, numbered by when it began; the row is its data. *)
Theorem C97_rows l :
  Forall (fun '(a, st) => no_null (top_entry a #"<root>" st)) l ->
  exists p, render_stacks l = (p, true) /\
    rows p = combine (seq 1 (length (page_calls (fun _ => #"<root>") l))) (map (fun '(e, _) => without_children e) (page_calls (fun _ => #"<root>") l)) /\
    pushed p = seq 1 (length (page_calls (fun _ => #"<root>") l)).
Proof.
  intros F. unfold render_stacks. rewrite walk_tops_ok by exact F. eexists. split; [reflexivity|].
  cbn [after w_next w_map w_out app]. rewrite rows_app, pushed_app. cbn [rows pushed]. rewrite rows_app, pushed_app.
  rewrite rows_list, pushed_list. destruct (rows_render (map_list 1 (tops_plain l) []) (number_tops (1 <? length l) 0 l)) as [-> ->].
  cbn. rewrite !app_nil_r. unfold tops_plain. rewrite <- page_calls_fst, map_length, map_map.
  split; [|reflexivity]. f_equal. apply map_ext. now intros [].
Qed.

Theorem C97_heads l :
  Forall (fun '(a, st) => no_null (top_entry a #"<root>" st)) l ->
  NoDup (map (fun '(e, _) => e_addr e) (page_calls (fun _ => #"<root>") l)) ->
  exists p hs, render_stacks l = (p, true) /\ heads [] p = Some hs /\
    let all := page_calls (root_name (1 <? length l)) l in
    length hs = length all /\
    forall i e outer, nth_error all i = Some (e, outer) ->
      exists h, nth_error hs i = Some h /\
        h_id h = S i /\
        (h_toggle h = true <-> e_children e <> []) /\ h_panic h = e_panic e /\ (h_error h = true <-> e_err e <> []) /\
        h_name h = escape_html (display_name e) /\ h_cost h = format_cost (e_begin e) (e_end e) /\
        (* the head lies in the sub-lists of the calls it is in, and of no others *)
        length (h_in h) = length outer /\
        forall k o j oo, nth_error outer k = Some o -> nth_error all j = Some (o, oo) -> nth_error (h_in h) k = Some (S j).
Proof.
  intros F D. unfold render_stacks. rewrite walk_tops_ok by exact F. eexists; eexists. split; [reflexivity|].
  cbn [after w_next w_map w_out app]. split.
  { rewrite heads_rows. cbn [heads]. rewrite heads_tops. cbn [heads omap]. reflexivity. }
  rewrite app_nil_r, number_tops_roots. fold (page_calls (root_name (1 <? length l)) l). cbn zeta. split; [now rewrite map_length|].
  assert (ID : forall i e outer, nth_error (page_calls (root_name (1 <? length l)) l) i = Some (e, outer) ->
               id_of (map_list 1 (tops_plain l) []) (e_addr e) = S i).
  { intros i e outer E.
    assert (E1 : nth_error (map e_addr (tops_plain l)) i = Some (e_addr e)).
    { unfold tops_plain. rewrite (tops_same_addr _ (root_name (1 <? length l))), <- page_calls_fst, map_map. now rewrite nth_error_map, E. }
    rewrite nth_error_map in E1. destruct (nth_error (tops_plain l) i) as [e'|] eqn:E2; [|discriminate]. injection E1 as E1. rewrite <- E1.
    rewrite (id_of_nth 1 (tops_plain l) [] i e'); [reflexivity| |exact E2].
    unfold tops_plain. rewrite <- page_calls_fst, map_map. erewrite map_ext; [exact D|]. now intros []. }
  intros i e outer E. eexists. split; [rewrite nth_error_map, E; reflexivity|]. cbn. unfold head_of; cbn.
  split; [eapply ID; exact E|]. split; [destruct (e_children e); split; intros; try discriminate; congruence|]. split; [reflexivity|].
  split; [destruct (e_err e); split; intros; try discriminate; congruence|]. split; [now rewrite <- shown_display|]. split; [reflexivity|].
  split; [now rewrite map_length|]. intros k o j oo K J. rewrite nth_error_map, K. cbn. f_equal. eapply ID. exact J.
Qed.

(** Row and head with the same number are of the same call. *)
Theorem C97_detail_is_of_head_partial l p hs i d h :
  Forall (fun '(a, st) => no_null (top_entry a #"<root>" st)) l ->
  NoDup (map (fun '(e, _) => e_addr e) (page_calls (fun _ => #"<root>") l)) ->
  render_stacks l = (p, true) -> heads [] p = Some hs ->
  In (i, d) (rows p) -> In h hs -> h_id h = i ->
  h_panic h = e_panic d /\ h_cost h = format_cost (e_begin d) (e_end d) /\
  (h_name h = escape_html (display_name d) \/
   (e_fi d = Some (root_info #"<root>") /\ 1 < length l /\ h_in h = [] /\ exists k, h_name h = escape_html (root_name true k))).
Proof.
  intros F D R H I Ih Hid.
  destruct (C97_rows l F) as (p1 & R1 & A & _). rewrite R in R1. injection R1 as <-.
  destruct (C97_heads l F D) as (p2 & hs2 & R2 & H2 & L & B). rewrite R in R2. injection R2 as <-. rewrite H in H2. injection H2 as <-.
  rewrite A in I. clear A. apply In_nth_error in Ih as (k & Ih).
  assert (Lk : k < length hs) by (apply nth_error_Some; congruence). rewrite L in Lk.
  destruct (nth_error (page_calls (root_name (1 <? length l)) l) k) as [[e outer]|] eqn:E; [|apply nth_error_None in E; lia].
  destruct (B k e outer E) as (h' & Eh & X). rewrite Ih in Eh. injection Eh as <-.
  destruct X as (X1 & _ & X3 & _ & X5 & X6 & X7 & _).
  assert (Ei : i = S k) by congruence. subst i.
  (* the row *)
  apply In_nth_error in I as (q & I).
  assert (P : nth_error (combine (seq 1 (length (page_calls (fun _ => #"<root>") l))) (map (fun '(e, _) => without_children e) (page_calls (fun _ => #"<root>") l))) q =
          match nth_error (page_calls (fun _ => #"<root>") l) q with Some (e, _) => Some (1 + q, without_children e) | None => None end).
  { clear. generalize 1 as n. revert q. induction (page_calls (fun _ => #"<root>") l) as [|[e o] a IH]; intros q n; [destruct q; reflexivity|].
    destruct q; cbn [length seq map combine nth_error]; [now rewrite Nat.add_0_r|]. rewrite IH. cbn [plus Nat.add]. destruct (nth_error a q) as [[? ?]|]; [|reflexivity]. do 2 f_equal. lia. }
  rewrite P in I. clear P. destruct (nth_error (page_calls (fun _ => #"<root>") l) q) as [[e' o']|] eqn:Eq; [|discriminate]. injection I as Q <-.
  assert (q = k) by lia. subst q.
  (* e' and e differ only in the name of the root *)
  assert (S : e = e' \/ (exists s a j, e' = top_entry a #"<root>" s /\ e = top_entry a (root_name (1 <? length l) j) s /\ outer = [])).
  { revert E Eq. unfold page_calls. generalize (1 <? length l) as many. generalize 0 as j. clear.
    intros j many. revert k j. induction l as [|[a s] l IH]; intros k j E Eq; [destruct k; discriminate|].
    cbn [roots flat_map] in *. rewrite calls_eq in E, Eq. cbn [top_entry e_children] in E, Eq.
    destruct k as [|k].
    - cbn in E, Eq. injection E as <- <-. injection Eq as <- <-. right. exists s, a, j. repeat split; reflexivity.
    - cbn [app nth_error] in E, Eq.
      set (x1 := top_entry a (root_name many j) s) in *. set (x2 := top_entry a #"<root>" s) in *.
      assert (LE : map fst (flat_map (calls [x1]) (kids (s_children s))) = map fst (flat_map (calls [x2]) (kids (s_children s)))).
      { rewrite !calls_list_fst. reflexivity. }
      change (nth_error (flat_map (calls [x1]) (kids (s_children s)) ++ flat_map (calls []) (roots (root_name many) (S j) l)) k = Some (e, outer)) in E.
      change (nth_error (flat_map (calls [x2]) (kids (s_children s)) ++ flat_map (calls []) (roots (fun _ => #"<root>") (S j) l)) k = Some (e', o')) in Eq.
      destruct (Nat.lt_ge_cases k (length (flat_map (calls [x1]) (kids (s_children s))))) as [Lt|Ge].
      + assert (Lt2 : k < length (flat_map (calls [x2]) (kids (s_children s)))).
        { rewrite <- (map_length fst) in Lt |- *. now rewrite <- LE. }
        rewrite nth_error_app1 in E, Eq by assumption. left.
        apply (map_nth_error fst) in E, Eq. rewrite LE in E. cbn in E, Eq. congruence.
      + assert (Le : length (flat_map (calls [x1]) (kids (s_children s))) = length (flat_map (calls [x2]) (kids (s_children s)))).
        { rewrite <- !(map_length fst). now rewrite LE. }
        rewrite nth_error_app2 in E by lia. rewrite nth_error_app2 in Eq by lia. rewrite Le in E. eapply IH; [exact E|exact Eq]. }
  assert (W : e_panic (without_children e') = e_panic e' /\ e_begin (without_children e') = e_begin e' /\ e_end (without_children e') = e_end e'
              /\ e_fi (without_children e') = e_fi e' /\ display_name (without_children e') = display_name e') by (destruct e'; repeat split).
  destruct W as (-> & -> & -> & -> & ->).
  destruct S as [->|(s & a & j & -> & -> & ->)].
  - split; [exact X3|]. split; [exact X6|]. now left.
  - split; [exact X3|]. split; [exact X6|]. destruct (1 <? length l) eqn:M.
    + right. apply Nat.ltb_lt in M. split; [reflexivity|]. split; [exact M|]. split; [destruct (h_in h); [reflexivity|discriminate]|].
      exists j. exact X5.
    + left. exact X5.
Qed.
(** The detail of a root does not have the name of its head when there are several stacks. *)
Definition two_stacks : list (nat * stack) :=
  [(1, {| s_format := #"stack"; s_begin := []; s_children := [] |}); (2, {| s_format := #"stack"; s_begin := []; s_children := [] |})].
Theorem C97_detail_is_of_head_refuted :
  exists l p hs i d h, Forall (fun '(a, st) => no_null (top_entry a #"<root>" st)) l /\
    NoDup (map (fun '(e, _) => e_addr e) (page_calls (fun _ => #"<root>") l)) /\
    render_stacks l = (p, true) /\ heads [] p = Some hs /\ In (i, d) (rows p) /\ In h hs /\ h_id h = i /\
    h_name h <> escape_html (display_name d).
Proof.
  exists two_stacks. eexists; eexists; exists 2. eexists; eexists.
  split; [repeat constructor; intros ? []|]. split; [cbn; repeat constructor; cbn; intuition discriminate|].
  split; [reflexivity|]. split; [reflexivity|]. split; [right; left; reflexivity|]. split; [right; left; reflexivity|].
  split; [reflexivity|]. vm_compute. discriminate.
Qed.

(** One null anywhere in the file: the list of calls is not on the page at all, and nobody is told. *)
Lemma no_list_walk e s : (forall x, In x (w_out s) -> exists i d, x = PRow i d \/ x = PPush i) ->
  forall x, In x (w_out (fst (walk e s))) -> exists i d, x = PRow i d \/ x = PPush i.
Proof.
  revert s; induction e as [e IH] using entry_ind'; intros s K x. rewrite walk_eq.
  assert (K1 : forall x, In x (w_out (after [e] s)) -> exists i d, x = PRow i d \/ x = PPush i).
  { cbn. intros y Y. rewrite in_app_iff in Y. destruct Y as [Y|[<-|[<-|[]]]]; [eauto| |]; exists (w_next s), (without_children e); eauto. }
  revert K1. generalize (after [e] s) as s0. clear K s. induction (e_children e) as [|[c|] l IHl]; intros s0 K1; cbn [walk_list fst]; eauto.
  destruct (walk c s0) as [s1 ok] eqn:W.
  assert (K2 : forall x, In x (w_out s1) -> exists i d, x = PRow i d \/ x = PPush i).
  { intros y Y. eapply (IH c (or_introl eq_refl) s0); [exact K1|]. now rewrite W. }
  destruct ok; [|apply K2]. apply IHl; [intros c' I; apply IH; now right|exact K2].
Qed.
Theorem C97_null_hides_all_refuted l :
  ~ Forall (fun '(a, st) => no_null (top_entry a #"<root>" st)) l ->
  exists p, render_stacks l = (p, false) /\ heads [] p = Some [].
Proof.
  intros N. unfold render_stacks. pose proof (walk_tops_bad l {| w_next := 1; w_map := []; w_out := [] |} N) as B.
  destruct (walk_tops l _) as [s ok] eqn:W. cbn in B. subst ok. exists (w_out s). split; [reflexivity|].
  assert (G : forall l s0 s b, (forall x, In x (w_out s0) -> exists i d, x = PRow i d \/ x = PPush i) -> walk_tops l s0 = (s, b) ->
              forall x, In x (w_out s) -> exists i d, x = PRow i d \/ x = PPush i).
  { clear. induction l as [|[a st] l IH]; intros s0 s b K W; cbn [walk_tops] in W; [injection W as <- _; exact K|].
    destruct (walk (top_entry a #"<root>" st) s0) as [s1 ok] eqn:W1.
    assert (K1 : forall x, In x (w_out s1) -> exists i d, x = PRow i d \/ x = PPush i).
    { intros x X. eapply (no_list_walk (top_entry a #"<root>" st) s0); [exact K|]. now rewrite W1. }
    destruct ok; [eapply IH; eassumption|]. injection W as <- _. exact K1. }
  assert (K : forall x, In x (w_out s) -> exists i d, x = PRow i d \/ x = PPush i) by (eapply G; [|exact W]; intros ? []).
  clear - K. induction (w_out s) as [|x l IH]; [reflexivity|].
  destruct (K x (or_introl eq_refl)) as (i & d & [-> | ->]); cbn; apply IH; intros; apply K; now right.
Qed.
Example C97_null_case : ~ Forall (fun '(a, st) => no_null (top_entry a #"<root>" st)) [(1, {| s_format := []; s_begin := []; s_children := [None] |})].
Proof. intros F. inversion F as [|? ? N _]; subst. inversion N as [? K]; subst. destruct (K None (or_introl eq_refl)) as (? & ? & _). discriminate. Qed.
Definition page1 : list (nat * stack) :=
  [(10, {| s_format := #"stack"; s_begin := [];
           s_children := [Some (Entry 1 (Some (root_info #"a<b>")) 1 2500 [] [] false 0 []
                                  [Some (Entry 2 None 2 3 [] [] true 0 #"e" [])]);
                          Some (Entry 3 (Some (root_info #"c")) 5 6 [] [] false 0 [] [])] |})].
(** A page with a call in a call. *)
Example C97_case :
  Forall (fun '(a, st) => no_null (top_entry a #"<root>" st)) page1 /\
  NoDup (map (fun '(e, _) => e_addr e) (page_calls (fun _ => #"<root>") page1)) /\
  exists p hs, render_stacks page1 = (p, true) /\ heads [] p = Some hs /\
    map (fun h => (h_id h, h_name h, h_cost h, h_in h)) hs =
    [(1, #"&lt;root&gt;", [], []); (2, #"a&lt;b&gt;", #"2μs", [1]); (3, #"&lt;unknown&gt;", #"1ns", [2; 1]); (4, #"c", #"1ns", [1])].
Proof.
  split; [|split].
  - repeat constructor; cbn; intros o [<-|[<-|[]]]; eexists; (split; [reflexivity|]); repeat constructor; cbn.
    + intros o [<-|[]]. eexists. split; [reflexivity|]. constructor. intros ? [].
    + intros ? [].
  - cbn. repeat constructor; cbn; intuition discriminate.
  - eexists; eexists. split; [reflexivity|]. split; [reflexivity|]. vm_compute. reflexivity.
Qed.

(** *** Text on the page *)
(** The browser's reading of the five entities. *)
Fixpoint unescape (n : nat) (s : bytes) : bytes :=
  match n with
  | 0 => []
  | S n =>
      match s with
      | [] => []
      | c :: r =>
          if Ascii.eqb c "&"%char then
            if has_prefix s #"&amp;" then "&"%char :: unescape n (skipn 5 s)
            else if has_prefix s #"&#39;" then "'"%char :: unescape n (skipn 5 s)
            else if has_prefix s #"&lt;" then "<"%char :: unescape n (skipn 4 s)
            else if has_prefix s #"&gt;" then ">"%char :: unescape n (skipn 4 s)
            else if has_prefix s #"&#34;" then """"%char :: unescape n (skipn 5 s)
            else c :: unescape n r
          else c :: unescape n r
      end
  end.
(** A name can begin no tag and end no attribute, and is read back as it is. *)
Theorem C97_names_are_text s :
  ~ In "<"%char (escape_html s) /\ ~ In ">"%char (escape_html s) /\ ~ In """"%char (escape_html s) /\ ~ In "'"%char (escape_html s) /\
  unescape (length (escape_html s)) (escape_html s) = s.
Proof.
  assert (C : forall c, ~ In "<"%char (escape_char c) /\ ~ In ">"%char (escape_char c) /\ ~ In """"%char (escape_char c) /\ ~ In "'"%char (escape_char c)).
  { intros c. unfold escape_char.
    destruct (Ascii.eqb_spec c "&"%char); [cbn; intuition discriminate|].
    destruct (Ascii.eqb_spec c "'"%char); [cbn; intuition discriminate|].
    destruct (Ascii.eqb_spec c "<"%char); [cbn; intuition discriminate|].
    destruct (Ascii.eqb_spec c ">"%char); [cbn; intuition discriminate|].
    destruct (Ascii.eqb_spec c """"%char); [cbn; intuition discriminate|]. cbn; intuition congruence. }
  assert (I : forall x, (forall c, ~ In x (escape_char c)) -> ~ In x (escape_html s)).
  { intros x X Y. unfold escape_html in Y. apply in_flat_map in Y as (c & _ & Y). now apply (X c). }
  split; [apply I; intros; apply C|]. split; [apply I; intros; apply C|]. split; [apply I; intros; apply C|]. split; [apply I; intros; apply C|].
  assert (U : forall n, length (escape_html s) <= n -> unescape n (escape_html s) = s).
  { clear I. induction s as [|c s IH]; intros n L; [destruct n; reflexivity|]. unfold escape_html in *. cbn [flat_map] in *.
    rewrite app_length in L. revert L IH. generalize (flat_map escape_char s) as t. intros t L IH. revert L. unfold escape_char.
    destruct (Ascii.eqb_spec c "&"%char) as [->|]; [intros L; destruct n; [cbn in L; lia|]; transitivity ("&"%char :: unescape n t); [reflexivity|f_equal; apply IH; cbn in L; lia]|].
    destruct (Ascii.eqb_spec c "'"%char) as [->|]; [intros L; destruct n; [cbn in L; lia|]; transitivity ("'"%char :: unescape n t); [reflexivity|f_equal; apply IH; cbn in L; lia]|].
    destruct (Ascii.eqb_spec c "<"%char) as [->|]; [intros L; destruct n; [cbn in L; lia|]; transitivity ("<"%char :: unescape n t); [reflexivity|f_equal; apply IH; cbn in L; lia]|].
    destruct (Ascii.eqb_spec c ">"%char) as [->|]; [intros L; destruct n; [cbn in L; lia|]; transitivity (">"%char :: unescape n t); [reflexivity|f_equal; apply IH; cbn in L; lia]|].
    destruct (Ascii.eqb_spec c """"%char) as [->|]; [intros L; destruct n; [cbn in L; lia|]; transitivity (""""%char :: unescape n t); [reflexivity|f_equal; apply IH; cbn in L; lia]|].
    intros L. destruct n; [cbn in L; lia|]. cbn [unescape app]. destruct (Ascii.eqb_spec c "&"%char); [contradiction|]. f_equal. apply IH. cbn in L. lia. }
  now apply U.
Qed.

(** ** C98 *)
(** The unit names and their lengths in nanoseconds. *)
Definition unit_ns : list (bytes * Z) :=
  [(#"ns", 1); (#"μs", 1000); (#"ms", 1000000); (#"s", 1000000000); (#"m", 60 * 1000000000); (#"h", 3600 * 1000000000); (#"d", 24 * 3600 * 1000000000)]%Z.
(** A shown duration is the whole number of units in it, in the largest unit that goes into it: never more than it
    was and less than one unit short. *)
Theorem C98_cost b e : (b <> 0 \/ e <> 0)%Z -> b <> e ->
  exists u ns q, In (u, ns) unit_ns /\
    format_cost b e = (if (e <? b)%Z then #"-" else []) ++ format_int q ++ u /\
    (1 <= q /\ q * ns <= Z.abs (e - b) < (q + 1) * ns /\
     forall u' ns', In (u', ns') unit_ns -> ns' <= Z.abs (e - b) -> ns' <= ns)%Z.
Proof.
  intros N D. unfold format_cost.
  destruct ((e =? 0)%Z && (b =? 0)%Z) eqn:Z0; [apply andb_true_iff in Z0 as [A B]; apply Z.eqb_eq in A, B; lia|].
  assert (S : (e - b <? 0)%Z = (e <? b)%Z) by (destruct (Z.ltb_spec (e - b) 0), (Z.ltb_spec e b); lia || reflexivity). rewrite S.
  assert (P : (1 <= Z.abs (e - b))%Z) by lia. revert P. generalize (Z.abs (e - b)) as c. intros c P.
  assert (G : exists u ns, In (u, ns) unit_ns /\ scale_up units c 1 #"ns" = (ns, u) /\ (0 < ns <= c)%Z /\ (forall u' ns', In (u', ns') unit_ns -> ns' <= c -> ns' <= ns)%Z).
  { unfold units, unit_ns. cbn [scale_up]. rewrite !Z.mul_1_l.
    repeat match goal with |- context [(c <? ?x)%Z] => let H := fresh in destruct (Z.ltb_spec c x) as [H|H]; cbn in H end;
      (eexists; eexists; split; [|split; [reflexivity|split; [lia|]]]; [cbn; tauto|]);
      cbn; intros u' ns' K; repeat (destruct K as [K|K]; [injection K as <- <-; lia|]); destruct K. }
  destruct G as (u & ns & I & -> & L & M). exists u, ns, (c / ns)%Z. split; [exact I|]. split; [reflexivity|].
  assert (Z.div c ns * ns <= c < (Z.div c ns + 1) * ns)%Z.
  { pose proof (Z.div_mod c ns ltac:(lia)). pose proof (Z.mod_pos_bound c ns ltac:(lia)). lia. }
  split; [apply Z.div_le_lower_bound; lia|]. split; [assumption|exact M].
Qed.
(** No times, no duration; a call that took no time shows 0ns. *)
Theorem C98_none b e :
  (format_cost b e = [] <-> b = 0 /\ e = 0)%Z /\ (b <> 0%Z -> format_cost b b = #"0ns").
Proof.
  split.
  - split; [|intros [-> ->]; reflexivity]. intros F. destruct (Z.eq_dec b 0) as [->|Nb]; [destruct (Z.eq_dec e 0) as [->|Ne]; [now split|]|].
    + exfalso. destruct (C98_cost 0 e) as (u & ns & q & I & E & _); [now right|lia|]. rewrite F in E. symmetry in E.
      apply app_eq_nil in E as [_ E]. apply app_eq_nil in E as [_ ->]. cbn in I. intuition discriminate.
    + exfalso. destruct (Z.eq_dec b e) as [<-|D].
      * revert F. unfold format_cost. destruct (b =? 0)%Z eqn:E; [apply Z.eqb_eq in E; lia|]. rewrite Z.sub_diag. discriminate.
      * destruct (C98_cost b e) as (u & ns & q & I & E & _); [now left|exact D|]. rewrite F in E. symmetry in E.
        apply app_eq_nil in E as [_ E]. apply app_eq_nil in E as [_ ->]. cbn in I. intuition discriminate.
  - intros N. unfold format_cost. destruct (b =? 0)%Z eqn:E; [apply Z.eqb_eq in E; lia|]. now rewrite Z.sub_diag.
Qed.
Example C98_case : format_cost 5 90000000005 = #"1m" /\ format_cost 1000 1 = #"-999ns".
Proof. split; vm_compute; reflexivity. Qed.
