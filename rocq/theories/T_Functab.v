(** * C19, C20, C37: function registration and lookup.  Model: M_Functab.
    The specification only uses the list of operations / registrations made. *)
From Coq Require Import Ascii String List Arith Bool Lia.
From Verif Require Import M_Str M_FuncName M_Functab T_FuncName.
Import ListNotations.
Open Scope nat_scope.

(** ** Specification *)
(** The functions registered by a history, in order. *)
Fixpoint registered (ops : list reg_op) : list info :=
  match ops with
  | [] => []
  | RRegister f :: r => f :: registered r
  | RSetup :: r => registered r
  end.
Definition handler_set (ops : list reg_op) : Prop := In RSetup ops.

(** [x] is the last element of [l] satisfying [p]; no element does. *)
Definition is_last {A} (p : A -> Prop) (l : list A) (x : A) : Prop :=
  exists a b, l = a ++ x :: b /\ p x /\ Forall (fun y => ~ p y) b.
Definition none_such {A} (p : A -> Prop) (l : list A) : Prop := Forall (fun y => ~ p y) l.

(** ** C19 *)
Lemma registered_app a b : registered (a ++ b) = registered a ++ registered b.
Proof. induction a as [|[f|] a IH]; simpl; congruence. Qed.

Lemma reg_run_snoc ops o : reg_run (ops ++ [o]) =
  match reg_step (reg_run ops) o with Some s' => s' | None => reg_run ops end.
Proof. unfold reg_run. now rewrite fold_left_app. Qed.

Lemma reg_inv ops : r_delivered (reg_run ops) ++ r_staging (reg_run ops) = registered ops /\
  (r_handler (reg_run ops) = true <-> handler_set ops) /\
  (r_handler (reg_run ops) = true -> r_staging (reg_run ops) = []) /\
  (r_handler (reg_run ops) = false -> r_delivered (reg_run ops) = []).
Proof.
  induction ops as [|o ops IH] using rev_ind.
  - simpl. split; auto. split; [split; [discriminate|intros []]|]. split; [discriminate|auto].
  - rewrite reg_run_snoc, registered_app. destruct IH as (E & H & S1 & S2).
    unfold handler_set. rewrite in_app_iff. unfold reg_step.
    destruct (reg_run ops) as [h st de]; simpl in *. destruct o as [f|]; destruct h; simpl.
    + rewrite S1 in * by auto. rewrite app_nil_r in *. split; [now rewrite E|]. split; [|split; [auto|discriminate]].
      split; auto. intros _. left. now apply H.
    + rewrite S2 in * by auto. simpl in *. split; [now rewrite E|]. split; [|split; [discriminate|auto]].
      split; [discriminate|]. intros [I|[I|[]]]; [|discriminate]. apply H in I. discriminate.
    + rewrite app_nil_r. split; auto. split; [|split; [auto|discriminate]]. tauto.
    + rewrite !app_nil_r. repeat split; auto; discriminate.
Qed.

(** Whatever the order of registrations and handler set-ups, everything registered
    so far is either delivered or waiting, once and in order; once a handler is set
    up everything has been delivered. *)
Theorem C19_exactly_once_in_order :
  forall ops,
    r_delivered (reg_run ops) ++ r_staging (reg_run ops) = registered ops /\
    (handler_set ops -> r_delivered (reg_run ops) = registered ops) /\
    (~ handler_set ops -> r_delivered (reg_run ops) = []).
Proof.
  intros ops. destruct (reg_inv ops) as (E & H & S1 & S2). split; auto. split.
  - intros I. apply H in I. rewrite S1 in E by auto. now rewrite app_nil_r in E.
  - intros N. destruct (r_handler (reg_run ops)) eqn:Q; auto. exfalso. now apply N, H.
Qed.
Print Assumptions C19_exactly_once_in_order.

(** Delivery is never revised: what a prefix of the history delivered stays, in
    place, whatever happens afterwards. *)
Theorem C19_delivery_monotone :
  forall ops more, exists later, r_delivered (reg_run (ops ++ more)) = r_delivered (reg_run ops) ++ later.
Proof.
  intros ops more. destruct (C19_exactly_once_in_order (ops ++ more)) as (_ & A & B).
  destruct (C19_exactly_once_in_order ops) as (_ & A' & B').
  assert (D : handler_set ops \/ ~ handler_set ops).
  { destruct (reg_inv ops) as (_ & H & _). destruct (r_handler (reg_run ops)); [left; now apply H|right; rewrite <- H; discriminate]. }
  destruct D as [D|D].
  - rewrite A' by auto. rewrite A by (apply in_or_app; auto). rewrite registered_app. eauto.
  - rewrite B' by auto. simpl. eauto.
Qed.
Print Assumptions C19_delivery_monotone.

(** A second set-up panics; the state is as before. *)
Theorem C19_second_setup_panics :
  forall ops, reg_step (reg_run ops) RSetup = None <-> handler_set ops.
Proof.
  intros ops. destruct (reg_inv ops) as (_ & H & _). rewrite <- H. unfold reg_step.
  destruct (r_handler (reg_run ops)); split; intros; auto; discriminate.
Qed.
Print Assumptions C19_second_setup_panics.

Definition mk (pkg ident : bytes) : info :=
  Info 0 KFunc [] pkg ident [] [] false false false None None.
Example C19_example :
  let a := mk #"p" #"A" in let b := mk #"p" #"B" in let c := mk #"p" #"C" in
  r_delivered (reg_run [RRegister a; RRegister b; RSetup; RRegister c; RSetup; RRegister a]) = [a; b; c; a] /\
  r_delivered (reg_run [RRegister a; RRegister b]) = [].
Proof. split; reflexivity. Qed.

(** ** C20 *)
Lemma find_key_last {A K} (eqb : K -> K -> bool) (eqb_ok : forall a b, eqb a b = true <-> a = b)
  (key : A -> option K) (l : list A) (tab : list (K * A)) k :
  tab = rev (flat_map (fun i => match key i with Some k => [(k, i)] | None => [] end) l) ->
  (forall i, find_key eqb k tab = Some i <-> is_last (fun i => key i = Some k) l i) /\
  (find_key eqb k tab = None <-> none_such (fun i => key i = Some k) l).
Proof.
  intros ->. induction l as [|x l IH] using rev_ind.
  - simpl. split; [|split; [constructor|auto]]. intros i. split; [discriminate|]. intros (a & b & E & _). destruct a; discriminate.
  - rewrite flat_map_app, rev_app_distr. simpl.
    assert (DN : none_such (fun i => key i = Some k) (l ++ [x]) <-> none_such (fun i => key i = Some k) l /\ key x <> Some k).
    { unfold none_such. rewrite Forall_app. split; intros [F1 F2]; split; auto. now inversion F2. }
    assert (DL : forall i, is_last (fun i => key i = Some k) (l ++ [x]) i <->
      (key x = Some k /\ i = x) \/ (key x <> Some k /\ is_last (fun i => key i = Some k) l i)).
    { intros i. split.
      - intros (a & b & E & P & F). destruct b as [|y b] using rev_ind.
        + apply app_inj_tail in E as [_ E]. subst. auto.
        + clear IHb. right. apply Forall_app in F as [F1 F2]. inversion F2; subst.
          change (a ++ i :: b ++ [y]) with (a ++ (i :: b) ++ [y]) in E. rewrite app_assoc in E.
          apply app_inj_tail in E as [-> <-]. split; auto. now exists a, b.
      - intros [[P ->]|[P (a & b & -> & Q & F)]].
        + exists l, []. auto.
        + exists a, (b ++ [x]). rewrite <- app_assoc. split; auto. split; auto. apply Forall_app. auto. }
    rewrite DN. destruct (key x) as [k'|] eqn:Kx; simpl.
    + destruct (eqb k k') eqn:E.
      * apply eqb_ok in E. subst k'. split.
        -- intros i. rewrite DL. split.
           ++ intros H. injection H as ->. auto.
           ++ intros [[_ ->]|[N _]]; congruence.
        -- split; [discriminate|]. intros [_ N]. congruence.
      * assert (N : k' <> k) by (intros ->; assert (eqb k k = true) by (now apply eqb_ok); congruence).
        destruct IH as [I1 I2]. split.
        -- intros i. rewrite DL, I1. split; [intros H; right; split; congruence|]. intros [[H _]|[_ H]]; [congruence|auto].
        -- rewrite I2. split; [|tauto]. intros H. split; congruence.
    + destruct IH as [I1 I2]. split.
      * intros i. rewrite DL, I1. split; [intros H; right; split; congruence|]. intros [[H _]|[_ H]]; [congruence|auto].
      * rewrite I2. split; [|tauto]. intros H. split; congruence.
Qed.

Definition ident_key (i : info) := if nonempty (i_ident i) then Some (i_pkg i, i_ident i) else None.
Definition pc_key (i : info) := if negb (i_generic i) && negb (fst (pc_full i) =? 0) then Some (fst (pc_full i)) else None.
Definition var_key (i : info) := match i_var i with Some a => if kind_eqb (i_kind i) KVar then Some a else None | None => None end.
Definition full_key (i : info) := match full_name i with Some f => if nonempty f then Some f else None | None => None end.
Definition intf_key (i : info) := if i_interface i && nonempty (i_recv i) then Some (i_pkg i, i_recv i) else None.
Definition tab {A K} (key : A -> option K) (l : list A) : list (K * A) :=
  rev (flat_map (fun i => match key i with Some k => [(k, i)] | None => [] end) l).

Lemma tab_snoc {A K} (key : A -> option K) l x : tab key (l ++ [x]) = match key x with Some k => (k, x) :: tab key l | None => tab key l end.
Proof. unfold tab. rewrite flat_map_app, rev_app_distr. simpl. now destruct (key x). Qed.

Lemma register_all_app t a b : register_all t (a ++ b) = match register_all t a with Some t' => register_all t' b | None => None end.
Proof. revert t. induction a as [|x a IH]; intros t; simpl; auto. destruct (register t x); auto. Qed.

Lemma register_all_tabs l t : register_all empty_table l = Some t ->
  t = Table l (tab ident_key l) (tab pc_key l) (tab var_key l) (tab full_key l) (tab intf_key l).
Proof.
  revert t. induction l as [|x l IH] using rev_ind; intros t H.
  - simpl in H. injection H as <-. reflexivity.
  - rewrite register_all_app in H. destruct (register_all empty_table l) as [t0|]; [|discriminate].
    specialize (IH t0 eq_refl). simpl in H. destruct (register t0 x) as [t1|] eqn:R; [|discriminate]. injection H as <-.
    rewrite !tab_snoc. unfold register in R. destruct (full_name x) as [f|] eqn:F; [|discriminate].
    injection R as <-. subst t0. simpl. unfold ident_key, pc_key, var_key, full_key, intf_key. rewrite F.
    f_equal.
    + now destruct (nonempty (i_ident x)).
    + now destruct (negb (i_generic x) && negb (fst (pc_full x) =? 0)).
    + destruct (i_var x); auto. now destruct (kind_eqb (i_kind x) KVar).
    + now destruct (nonempty f).
    + now destruct (i_interface x && nonempty (i_recv x)).
Qed.

Lemma eq2_ok a b : eq2 a b = true <-> a = b.
Proof.
  destruct a as [a1 a2], b as [b1 b2]. unfold eq2. simpl. rewrite andb_true_iff, !eqs_eq. split.
  - intros [-> ->]. auto.
  - intros H. injection H as -> ->. auto.
Qed.

(** [i] was registered in package [pkg] under the identity [name]. *)
Definition named (pkg name : bytes) (i : info) : Prop := i_pkg i = pkg /\ i_ident i = name /\ name <> [].
Lemma ident_key_named pkg name i : ident_key i = Some (pkg, name) <-> named pkg name i.
Proof.
  unfold ident_key, named. destruct (i_ident i) as [|c r] eqn:E; simpl.
  - split; [discriminate|]. intros (_ & E2 & N). congruence.
  - split.
    + intros H. injection H as <- <-. repeat split. discriminate.
    + intros (<- & <- & _). reflexivity.
Qed.
Lemma is_last_iff {A} (p q : A -> Prop) l i : (forall x, p x <-> q x) -> is_last p l i -> is_last q l i.
Proof.
  intros E (a & b & -> & P & F). exists a, b. split; auto. split; [now apply E|].
  eapply Forall_impl; [|exact F]. simpl. intros x N Q. now apply N, E.
Qed.
Lemma none_such_iff {A} (p q : A -> Prop) l : (forall x, p x <-> q x) -> none_such p l -> none_such q l.
Proof. intros E F. eapply Forall_impl; [|exact F]. simpl. intros x N Q. now apply N, E. Qed.

Definition find_ident l pkg name := find_key eq2 (pkg, name) (tab ident_key l).
Lemma find_ident_ok l pkg name :
  (forall i, find_ident l pkg name = Some i <-> is_last (named pkg name) l i) /\
  (find_ident l pkg name = None <-> none_such (named pkg name) l).
Proof.
  destruct (find_key_last eq2 eq2_ok ident_key l (tab ident_key l) (pkg, name) eq_refl) as [A B].
  unfold find_ident. split.
  - intros i. rewrite A. split; apply is_last_iff; intros x; [|symmetry]; apply ident_key_named.
  - rewrite B. split; apply none_such_iff; intros x; [|symmetry]; apply ident_key_named.
Qed.

(** Lookup by package and name, after any sequence of registrations: the last
    registration of exactly that name; failing that, for a name T.M (T the part
    before the first dot, name not starting with a parenthesis) the last
    registration of the pointer method; otherwise nothing. *)
Theorem C20_lookup_by_package_and_name :
  forall l t pkg name, register_all empty_table l = Some t ->
    (forall i, is_last (named pkg name) l i -> get_func_by_pkg t pkg name = Some i) /\
    (none_such (named pkg name) l -> forall T M,
       name = T ++ "."%char :: M -> ~ In "."%char T -> has_prefix name #"(" = false ->
       (forall i, is_last (named pkg (#"(*" ++ T ++ #")." ++ M)) l i -> get_func_by_pkg t pkg name = Some i) /\
       (none_such (named pkg (#"(*" ++ T ++ #")." ++ M)) l -> get_func_by_pkg t pkg name = None)) /\
    (none_such (named pkg name) l -> (~ In "."%char name \/ has_prefix name #"(" = true) -> get_func_by_pkg t pkg name = None).
Proof.
  intros l t pkg name H. apply register_all_tabs in H. subst t. unfold get_func_by_pkg. cbn [t_ident].
  fold (find_ident l pkg name). destruct (find_ident_ok l pkg name) as [A B]. split; [|split].
  - intros i I. apply A in I. now rewrite I.
  - intros N T M E Nd Hp. apply B in N. rewrite N, Hp. subst name. rewrite cut_first_some by auto.
    fold (find_ident l pkg (#"(*" ++ T ++ #")." ++ M)).
    destruct (find_ident_ok l pkg (#"(*" ++ T ++ #")." ++ M)) as [A' B'].
    split; [intros i I; now apply A'|intros I; now apply B'].
  - intros N D. apply B in N. rewrite N. destruct (has_prefix name #"(") eqn:P; auto.
    destruct D as [D|D]; [|congruence]. now rewrite cut_first_none.
Qed.
Print Assumptions C20_lookup_by_package_and_name.

(** Nothing is invented: whatever is found was registered, in that package, under
    that name or the pointer-method spelling of it. *)
Theorem C20_lookup_sound :
  forall l t pkg name i, register_all empty_table l = Some t -> get_func_by_pkg t pkg name = Some i ->
    In i l /\ i_pkg i = pkg /\
    (i_ident i = name \/ exists T M, name = T ++ "."%char :: M /\ i_ident i = #"(*" ++ T ++ #")." ++ M /\ none_such (named pkg name) l).
Proof.
  intros l t pkg name i H G. apply register_all_tabs in H. subst t. unfold get_func_by_pkg in G. cbn [t_ident] in G.
  fold (find_ident l pkg name) in G. destruct (find_ident_ok l pkg name) as [A B].
  assert (X : forall n, is_last (named pkg n) l i -> In i l /\ i_pkg i = pkg /\ i_ident i = n).
  { intros n (a & b & -> & (P & I & _) & _). split; auto. apply in_or_app. right. now left. }
  destruct (find_ident l pkg name) as [j|] eqn:F.
  - injection G as ->. destruct (X name) as (? & ? & ?); [now apply A|]. auto.
  - destruct (has_prefix name #"("); [discriminate|]. destruct (cut_first "."%char name) as [[T M]|] eqn:C; [|discriminate].
    apply cut_first_sound in C as [-> _].
    fold (find_ident l pkg (#"(*" ++ T ++ #")." ++ M)) in G.
    destruct (find_ident_ok l pkg (#"(*" ++ T ++ #")." ++ M)) as [A' _]. apply A' in G.
    destruct (X _ G) as (? & ? & ?). split; auto. split; auto. right. exists T, M. split; auto. split; auto. now apply B.
Qed.
Print Assumptions C20_lookup_sound.

(** Lookup by code address and by variable address: the last registration of a
    non-generic function at that address / of a variable at that address. *)
Theorem C20_lookup_by_address :
  forall l t, register_all empty_table l = Some t ->
    (forall pc i, info_pc t pc = Some i <->
       is_last (fun j => pc <> 0 /\ i_generic j = false /\ i_interface j = false /\ exists name, i_func j = Some (pc, name)) l i) /\
    (forall a i, info_var t a = Some i <-> is_last (fun j => i_kind j = KVar /\ i_var j = Some a) l i).
Proof.
  intros l t H. apply register_all_tabs in H. subst t. unfold info_pc, info_var. simpl. split.
  - intros pc i. destruct (find_key_last Nat.eqb Nat.eqb_eq pc_key l (tab pc_key l) pc eq_refl) as [A _]. rewrite A.
    assert (E : forall x, pc_key x = Some pc <-> pc <> 0 /\ i_generic x = false /\ i_interface x = false /\ exists name, i_func x = Some (pc, name)).
    { intros x. unfold pc_key, pc_full. split.
      - intros K. destruct (i_generic x); [discriminate|]. destruct (i_interface x); simpl in K; [discriminate|].
        destruct (i_func x) as [[p n]|]; simpl in K.
        + destruct (p =? 0) eqn:Z; [discriminate|]. simpl in K. injection K as ->. apply Nat.eqb_neq in Z. eauto.
        + destruct ((i_closure x || negb (kind_eqb (i_kind x) KFunc)) && nonempty (i_ident x)); simpl in K; discriminate.
      - intros (Z & -> & -> & n & ->). simpl. apply Nat.eqb_neq in Z. now rewrite Z. }
    split; apply is_last_iff; intros x; [|symmetry]; apply E.
  - intros a i. destruct (find_key_last Nat.eqb Nat.eqb_eq var_key l (tab var_key l) a eq_refl) as [A _]. rewrite A.
    assert (E : forall x, var_key x = Some a <-> i_kind x = KVar /\ i_var x = Some a).
    { intros x. unfold var_key. destruct (i_var x) as [b|]; [|split; [discriminate|intros []; congruence]].
      destruct (i_kind x); simpl; split; try discriminate; try (intros []; discriminate); intros H; try split; intuition congruence. }
    split; apply is_last_iff; intros x; [|symmetry]; apply E.
Qed.
Print Assumptions C20_lookup_by_address.

Definition ex_infos : list info :=
  [ Info 1 KFunc [] #"p" #"F" #"F" [] false false false (Some (100, #"p.F")) None;
    Info 2 KFunc [] #"p" #"(*T).M" #"M" #"T" false false false (Some (101, #"p.(*T).M")) None;
    Info 3 KFunc [] #"p" #"(*U).M" #"M" #"U" false false false (Some (102, #"p.(*U).M")) None;
    Info 4 KFunc [] #"p" #"U.M" #"M" #"U" false false false (Some (103, #"p.U.M")) None;
    Info 5 KVar [] #"p" #"v" #"v" [] false false false None (Some 7);
    Info 6 KFunc [] #"p" #"F" #"F" [] false false false (Some (100, #"p.F")) None ].
Example C20_example :
  exists t, register_all empty_table ex_infos = Some t /\
    option_map i_uid (get_func_by_pkg t #"p" #"F") = Some 6 /\
    option_map i_uid (get_func_by_pkg t #"p" #"T.M") = Some 2 /\
    option_map i_uid (get_func_by_pkg t #"p" #"U.M") = Some 4 /\
    get_func_by_pkg t #"p" #"T.N" = None /\ get_func_by_pkg t #"q" #"F" = None /\
    option_map i_uid (info_pc t 100) = Some 6 /\ option_map i_uid (info_var t 7) = Some 5.
Proof. eexists. split; [vm_compute; reflexivity|]. repeat split; vm_compute; reflexivity. Qed.

(** ** C37: lookup by full name *)

(** An exactly registered full name finds the last registration carrying it. *)
Theorem C37_exact_full_name :
  forall l t full i, register_all empty_table l = Some t ->
    is_last (fun j => full_name j = Some full /\ full <> []) l i ->
    get_func_by_full_name t full = Some (Some i).
Proof.
  intros l t full i H L. apply register_all_tabs in H. subst t. unfold get_func_by_full_name. simpl.
  destruct (find_key_last eqs eqs_eq full_key l (tab full_key l) full eq_refl) as [A _].
  assert (E : find_key eqs full (tab full_key l) = Some i).
  { apply A. revert L. apply is_last_iff. intros x. unfold full_key. destruct (full_name x) as [f|].
    - destruct f as [|c f]; simpl.
      + split; [intros [E N]; congruence|discriminate].
      + split; [intros [E N]; congruence|]. intros H. injection H as <-. split; [auto|discriminate].
    - split; [intros [E _]; discriminate|discriminate]. }
  now rewrite E.
Qed.
Print Assumptions C37_exact_full_name.

(** The full name of a method of an interface finds a method of that interface --
    but the last registered one, whatever its name (functab.go:135-139,300-307): with
    two methods A and B, the name of A finds B. *)
Theorem C37_interface_method_refuted :
  exists l t a b,
    register_all empty_table l = Some t /\ l = [a; b] /\
    i_interface a = true /\ i_interface b = true /\ i_name a <> i_name b /\
    get_func_by_full_name t (i_pkg a ++ #"." ++ i_recv a ++ #"." ++ i_name a) = Some (Some b).
Proof.
  exists [Info 1 KFunc [] #"p" #"I.A" #"A" #"I" true false false None None;
          Info 2 KFunc [] #"p" #"I.B" #"B" #"I" true false false None None].
  eexists. eexists. eexists. split; [vm_compute; reflexivity|]. split; [reflexivity|].
  split; [reflexivity|]. split; [reflexivity|]. split; [discriminate|]. vm_compute. reflexivity.
Qed.
Print Assumptions C37_interface_method_refuted.

(** The full name of an instance of a generic function or method (no such exact
    name being registered) finds the registered generic one. *)
Theorem C37_generic_instance :
  forall l t pkg r name targs i,
    register_all empty_table l = Some t ->
    pkg_ok pkg -> pkg <> [] -> ident name -> recv_ok r -> targs <> [] ->
    none_such (fun j => full_name j = Some (compose pkg r name)) l ->
    match r with
    | NoRecv g => g = Some targs /\ is_last (named pkg name) l i
    | ValRecv T g => g = Some targs /\ is_last (named pkg (T ++ "."%char :: name)) l i
    | PtrRecv T g => g = Some targs /\ none_such (named pkg (T ++ "."%char :: name)) l /\
                     is_last (named pkg (#"(*" ++ T ++ #")." ++ name)) l i
    end ->
    get_func_by_full_name t (compose pkg r name) = Some (Some i).
Proof.
  intros l t pkg r name targs i H Hp Np Hn Hr Nt NX M.
  destruct (C20_lookup_by_package_and_name l t pkg name H) as (L1 & _).
  assert (F : find_key eqs (compose pkg r name) (t_full t) = None).
  { pose proof (register_all_tabs _ _ H) as ->. simpl.
    destruct (find_key_last eqs eqs_eq full_key l (tab full_key l) (compose pkg r name) eq_refl) as [_ B].
    apply B. eapply Forall_impl; [|exact NX]. simpl. intros x N K. apply N. unfold full_key in K.
    destruct (full_name x) as [f|]; [|discriminate]. destruct (nonempty f); [|discriminate]. congruence. }
  unfold get_func_by_full_name. rewrite F, (C21_parse_partial pkg r name Hp Np Hn Hr).
  assert (NE : forall b : bytes, b <> [] -> nonempty b = true) by (intros [|]; simpl; congruence).
  destruct r as [g|T g|T g]; simpl parts; cbn [type_generic func_generic recv_name func_name pkg_path].
  - destruct M as [-> M]. simpl args. rewrite (NE targs Nt), orb_true_r. cbn [nonempty]. now rewrite (L1 i M).
  - destruct M as [-> M], Hr as [[NT _] _]. simpl args. rewrite (NE targs Nt), (NE T NT). simpl orb. cbv iota.
    destruct (C20_lookup_by_package_and_name l t pkg (T ++ #"." ++ name) H) as (L2 & _).
    now rewrite (L2 i M).
  - destruct M as (-> & N & M), Hr as [[NT FT] _]. simpl args. rewrite (NE targs Nt), (NE T NT). simpl orb. cbv iota.
    destruct (C20_lookup_by_package_and_name l t pkg (T ++ #"." ++ name) H) as (_ & L2 & _).
    destruct (L2 N T name eq_refl) as [L3 _].
    + eapply forall_not_in; [exact FT|]. simpl. tauto.
    + destruct T as [|c T]; [congruence|]. simpl. inversion FT; subst.
      destruct (eqc c "("%char) eqn:E; auto. apply eqc_eq in E. subst. exfalso. apply H2. simpl. tauto.
    + now rewrite (L3 i M).
Qed.
Print Assumptions C37_generic_instance.
Example C37_example :
  exists t, register_all empty_table
      [Info 1 KFunc [] #"p/q" #"F" #"F" [] false true false None None;
       Info 2 KFunc [] #"p/q" #"(*T).M" #"M" #"T" false true false None None] = Some t /\
    option_map (option_map i_uid) (get_func_by_full_name t #"p/q.F[...]") = Some (Some 1) /\
    option_map (option_map i_uid) (get_func_by_full_name t #"p/q.(*T[...]).M") = Some (Some 2).
Proof. eexists. split; [vm_compute; reflexivity|]. split; vm_compute; reflexivity. Qed.
